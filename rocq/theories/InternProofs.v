(** Lemmas about the sequential interner: its chunks seen as one flat list of slots. *)
From Coq Require Import ZArith List Bool Lia.
From Verif Require Import Base Arith InternModel.
Import ListNotations.
Local Open Scope Z_scope.

Section Intern.
Context {T : Type}.
Implicit Types (st : store T) (v : T) (c : list (slot T)).

(** Every chunk has its 32 slots. *)
Definition shape st : Prop := Forall (fun c => length c = chunk_size) st.
Definition flat st : list (slot T) := concat st.

Lemma length_flat st : shape st -> length (flat st) = (32 * length st)%nat.
Proof.
  induction 1 as [|c st Hc Hs IH]; [reflexivity|].
  unfold flat in *. cbn [concat length]. rewrite app_length, IH, Hc. unfold chunk_size. lia.
Qed.

Lemma flat_nth st : shape st -> forall i j, (j < 32)%nat ->
  slot_at st i j = unwrap (nth_error (flat st) (32 * i + j)).
Proof.
  induction 1 as [|c st Hc Hs IH]; intros i j Hj; unfold slot_at.
  - destruct i; cbn [nth_error unwrap bind flat concat]; rewrite nth_error_oob by (cbn; lia); reflexivity.
  - unfold flat. cbn [concat]. unfold chunk_size in Hc. destruct i as [|i].
    + cbn [nth_error unwrap bind]. rewrite nth_error_app1 by lia.
      replace (32 * 0 + j)%nat with j by lia. reflexivity.
    + cbn [nth_error]. rewrite nth_error_app2 by lia.
      replace (32 * S i + j - length c)%nat with (32 * i + j)%nat by lia.
      apply IH; auto.
Qed.

Lemma flat_nth_oob st i j : shape st -> (32 <= j)%nat -> slot_at st i j = Panic.
Proof.
  intros Hs Hj. unfold slot_at. destruct (nth_error st i) as [c|] eqn:E; [|reflexivity].
  cbn [unwrap bind]. rewrite nth_error_oob; [reflexivity|].
  apply nth_error_In in E. unfold shape in Hs. rewrite Forall_forall in Hs. apply Hs in E. unfold chunk_size in E. lia.
Qed.

Lemma upd_app1 {A} (l l' : list A) k x : (k < length l)%nat -> upd (l ++ l') k x = upd l k x ++ l'.
Proof.
  revert k; induction l as [|a l IH]; intros [|k] H; cbn in *; try lia; auto.
  rewrite IH by lia. auto.
Qed.

Lemma upd_app2 {A} (l l' : list A) k x : (length l <= k)%nat ->
  upd (l ++ l') k x = l ++ upd l' (k - length l) x.
Proof.
  revert k; induction l as [|a l IH]; intros k H; cbn [app length].
  - rewrite Nat.sub_0_r. auto.
  - destruct k as [|k]; cbn [length] in H; [lia|]. cbn [upd]. rewrite IH by lia. auto.
Qed.

Lemma shape_put st i j s : shape st -> shape (slot_put st i j s).
Proof.
  intros Hs. unfold slot_put. destruct (nth_error st i) as [c|] eqn:E; auto.
  unfold shape in *. rewrite Forall_forall in *. intros x Hx.
  apply In_nth_error in Hx. destruct Hx as [n Hn]. rewrite nth_error_upd in Hn.
  destruct (Nat.eqb i n && (i <? length st)%nat) eqn:Q.
  - assert (x = upd c j s) as -> by congruence. rewrite length_upd. apply Hs. eapply nth_error_In; eauto.
  - apply nth_error_In in Hn. auto.
Qed.

Lemma flat_put st : shape st -> forall i j s, (j < 32)%nat ->
  flat (slot_put st i j s) = upd (flat st) (32 * i + j) s.
Proof.
  induction 1 as [|c st Hc Hs IH]; intros i j s Hj; unfold slot_put.
  - destruct i; reflexivity.
  - unfold flat. unfold chunk_size in Hc. destruct i as [|i]; cbn [nth_error].
    + cbn [upd concat]. rewrite upd_app1 by lia. replace (32 * 0 + j)%nat with j by lia. auto.
    + cbn [concat]. rewrite upd_app2 by lia.
      replace (32 * S i + j - length c)%nat with (32 * i + j)%nat by lia.
      specialize (IH i j s Hj). unfold slot_put, flat in IH.
      destruct (nth_error st i) as [d|]; cbn [upd concat]; rewrite <- IH; reflexivity.
Qed.

Lemma flat_push st : flat (st ++ [new_chunk]) = flat st ++ new_chunk.
Proof. unfold flat. rewrite concat_app. cbn [concat]. rewrite app_nil_r. auto. Qed.

Lemma shape_push st : shape st -> shape (st ++ [new_chunk]).
Proof. intros H. unfold shape. apply Forall_app. split; auto. Qed.

(** ** Lookups *)

Variable eqb : T -> T -> bool.
Hypothesis eqb_ok : forall a b, eqb a b = true <-> a = b.

(** Slot [s] makes [find v] go on to the next slot. *)
Definition passes v (s : slot T) : Prop := cont s <> Some v /\ refs s <> 0.

Lemma find_slot_spec v i c : forall j,
  match find_slot eqb v i j c with
  | Some (Exists i' n) => i' = i /\ (j <= n < j + length c)%nat /\
      (exists s, nth_error c (n - j) = Some s /\ cont s = Some v) /\
      forall m s, (j + m < n)%nat -> nth_error c m = Some s -> passes v s
  | Some (Dead i' n) => i' = i /\ (j <= n < j + length c)%nat /\
      (exists s, nth_error c (n - j) = Some s /\ refs s = 0 /\ cont s <> Some v) /\
      forall m s, (j + m < n)%nat -> nth_error c m = Some s -> passes v s
  | Some Nothing => False
  | None => forall m s, nth_error c m = Some s -> passes v s
  end.
Proof.
  induction c as [|s c IH]; intros j; cbn [find_slot].
  - intros [|m] s H; discriminate.
  - destruct (match cont s with Some cur => eqb v cur | None => false end) eqn:E.
    + split; auto. split; [cbn; lia|]. split.
      * exists s. rewrite Nat.sub_diag. split; auto. destruct (cont s) as [u|]; [|discriminate].
        apply eqb_ok in E. congruence.
      * intros; lia.
    + assert (cont s <> Some v) as Hne.
      { intros Hs. rewrite Hs in E. rewrite (proj2 (eqb_ok v v)) in E by auto. discriminate. }
      destruct (Z.eqb_spec (refs s) 0) as [E0|E0].
      * split; auto. split; [cbn; lia|]. split.
        -- exists s. rewrite Nat.sub_diag. auto.
        -- intros; lia.
      * specialize (IH (S j)).
        destruct (find_slot eqb v i (S j) c) as [[i' n|i' n|]|]; auto.
        -- destruct IH as (-> & Hn & (s' & H1 & H2) & H3). split; auto. split; [cbn [length]; lia|]. split.
           ++ exists s'. replace (n - j)%nat with (S (n - S j)) by lia. auto.
           ++ intros [|m] s0 Hm Hs0; cbn [nth_error] in Hs0; [assert (s0 = s) as -> by congruence; split; auto|].
              apply (H3 m); auto. lia.
        -- destruct IH as (-> & Hn & (s' & H1 & H2) & H3). split; auto. split; [cbn [length]; lia|]. split.
           ++ exists s'. replace (n - j)%nat with (S (n - S j)) by lia. auto.
           ++ intros [|m] s0 Hm Hs0; cbn [nth_error] in Hs0; [assert (s0 = s) as -> by congruence; split; auto|].
              apply (H3 m); auto. lia.
        -- intros [|m] s0 Hs0; cbn [nth_error] in Hs0; [assert (s0 = s) as -> by congruence; split; auto|].
           apply (IH m); auto.
Qed.

Lemma find_chunk_spec v st : shape st -> forall i0,
  match find_chunk eqb v i0 st with
  | Exists i j => (i0 <= i)%nat /\ (j < 32)%nat /\
      (exists s, nth_error (flat st) (32 * (i - i0) + j) = Some s /\ cont s = Some v) /\
      forall m s, (m < 32 * (i - i0) + j)%nat -> nth_error (flat st) m = Some s -> passes v s
  | Dead i j => (i0 <= i)%nat /\ (j < 32)%nat /\
      (exists s, nth_error (flat st) (32 * (i - i0) + j) = Some s /\ refs s = 0 /\ cont s <> Some v) /\
      forall m s, (m < 32 * (i - i0) + j)%nat -> nth_error (flat st) m = Some s -> passes v s
  | Nothing => forall m s, nth_error (flat st) m = Some s -> passes v s
  end.
Proof.
  induction 1 as [|c st Hc Hs IH]; intros i0; cbn [find_chunk].
  - intros [|m] s H; discriminate.
  - pose proof (find_slot_spec v i0 c 0) as F. unfold chunk_size in Hc.
    assert (forall m s, (m < 32)%nat -> nth_error (flat (c :: st)) m = Some s ->
      nth_error c m = Some s) as Hin.
    { intros m s Hm E. unfold flat in E. cbn [concat] in E. rewrite nth_error_app1 in E by lia. auto. }
    assert (forall m s, (32 <= m)%nat -> nth_error (flat (c :: st)) m = Some s ->
      nth_error (flat st) (m - 32) = Some s) as Hout.
    { intros m s Hm E. unfold flat in E. cbn [concat] in E.
      rewrite nth_error_app2 in E by lia. rewrite Hc in E. auto. }
    destruct (find_slot eqb v i0 0 c) as [[i j|i j|]|].
    + destruct F as (-> & Hj & (s & H1 & H2) & H3). split; auto. split; [lia|].
      rewrite Nat.sub_diag. cbn [Nat.mul Nat.add]. split.
      * exists s. split; auto. unfold flat. cbn [concat]. rewrite nth_error_app1 by lia.
        rewrite Nat.sub_0_r in H1. auto.
      * intros m s' Hm E. apply (H3 m); [lia|]. apply Hin; auto. lia.
    + destruct F as (-> & Hj & (s & H1 & H2) & H3). split; auto. split; [lia|].
      rewrite Nat.sub_diag. cbn [Nat.mul Nat.add]. split.
      * exists s. split; auto. unfold flat. cbn [concat]. rewrite nth_error_app1 by lia.
        rewrite Nat.sub_0_r in H1. auto.
      * intros m s' Hm E. apply (H3 m); [lia|]. apply Hin; auto. lia.
    + destruct F.
    + specialize (IH (S i0)).
      assert (forall n, nth_error (flat (c :: st)) (32 + n) = nth_error (flat st) n) as Hsh.
      { intros n. unfold flat. cbn [concat]. rewrite nth_error_app2 by lia. f_equal. lia. }
      destruct (find_chunk eqb v (S i0) st) as [i j|i j|].
      * destruct IH as (Hi & Hj & (s & H1 & H2) & H3). split; [lia|]. split; auto.
        replace (32 * (i - i0) + j)%nat with (32 + (32 * (i - S i0) + j))%nat by lia. split.
        -- exists s. rewrite Hsh. auto.
        -- intros m s' Hm E. destruct (le_lt_dec 32 m) as [L|L].
           ++ apply (H3 (m - 32)%nat); [lia|]. apply Hout; auto.
           ++ apply (F m). apply Hin; auto.
      * destruct IH as (Hi & Hj & (s & H1 & H2) & H3). split; [lia|]. split; auto.
        replace (32 * (i - i0) + j)%nat with (32 + (32 * (i - S i0) + j))%nat by lia. split.
        -- exists s. rewrite Hsh. auto.
        -- intros m s' Hm E. destruct (le_lt_dec 32 m) as [L|L].
           ++ apply (H3 (m - 32)%nat); [lia|]. apply Hout; auto.
           ++ apply (F m). apply Hin; auto.
      * intros m s' E. destruct (le_lt_dec 32 m) as [L|L].
        -- apply (IH (m - 32)%nat). apply Hout; auto.
        -- apply (F m). apply Hin; auto.
Qed.

Lemma idx_of_offset i j : (j < 32)%nat -> offset_to_idx (idx_to_offset i j) = (i, j).
Proof.
  intros Hj. unfold offset_to_idx, idx_to_offset.
  rewrite Z.div_add_l, Z.div_small by lia.
  rewrite (Z.add_comm (Z.of_nat i * 32)), Z.mod_add, Z.mod_small by lia. f_equal; lia.
Qed.

Lemma offset_idx k : 0 <= k ->
  let '(i, j) := offset_to_idx k in (j < 32)%nat /\ (32 * i + j)%nat = Z.to_nat k.
Proof.
  intros Hk. unfold offset_to_idx. pose proof (Z.mod_pos_bound k 32 ltac:(lia)).
  pose proof (Z.div_mod k 32 ltac:(lia)). pose proof (Z.div_pos k 32 Hk ltac:(lia)).
  split; [lia|]. apply Nat2Z.inj. rewrite Nat2Z.inj_add, Nat2Z.inj_mul, !Z2Nat.id by lia. lia.
Qed.

(** The slot of id [k]. *)
Definition slot_of st (k : Z) : option (slot T) := if k <? 0 then None else nth_error (flat st) (Z.to_nat k).

Lemma slot_at_offset st k : shape st -> 0 <= k ->
  (let '(i, j) := offset_to_idx k in slot_at st i j) = unwrap (slot_of st k).
Proof.
  intros Hs Hk. pose proof (offset_idx k Hk) as H. destruct (offset_to_idx k) as [i j].
  destruct H as [H1 H2]. rewrite flat_nth by auto. unfold slot_of. rewrite H2.
  rewrite (proj2 (Z.ltb_ge k 0)) by lia. auto.
Qed.

Lemma slot_of_put st k s k' : shape st -> 0 <= k -> 0 <= k' ->
  (slot_of (let '(i, j) := offset_to_idx k in slot_put st i j s) k') =
  if k =? k' then option_map (fun _ => s) (slot_of st k) else slot_of st k'.
Proof.
  intros Hs Hk Hk'. pose proof (offset_idx k Hk) as H. destruct (offset_to_idx k) as [i j].
  destruct H as [H1 H2]. unfold slot_of. rewrite flat_put by auto. rewrite H2.
  rewrite !(proj2 (Z.ltb_ge _ 0)) by lia. rewrite nth_error_upd.
  destruct (Z.eqb_spec k k') as [->|Hne].
  - rewrite Nat.eqb_refl. cbn [andb]. destruct (Nat.ltb_spec (Z.to_nat k') (length (flat st))) as [L|L].
    + destruct (nth_error (flat st) (Z.to_nat k')) eqn:E; [reflexivity|]. apply nth_error_None in E. lia.
    + rewrite nth_error_oob by lia. reflexivity.
  - rewrite (proj2 (Nat.eqb_neq _ _)) by lia. auto.
Qed.

(** ** Operations on one id *)

Lemma put_shape st k s : shape st -> shape (let '(i, j) := offset_to_idx k in slot_put st i j s).
Proof. intros. destruct (offset_to_idx k). apply shape_put; auto. Qed.

Lemma length_slot_put st i j s : length (slot_put st i j s) = length st.
Proof. unfold slot_put. destruct (nth_error st i); auto. apply length_upd. Qed.

Lemma intern_incr_spec dbg st k s : shape st -> 0 <= k -> slot_of st k = Some s -> 0 <= refs s < 2 ^ 64 - 1 ->
  exists st', intern_incr dbg k st = Ok st' /\ shape st' /\ length st' = length st /\
    forall k', 0 <= k' -> slot_of st' k' = if k =? k' then Some (Slot (refs s + 1) (cont s)) else slot_of st k'.
Proof.
  intros Hs Hk E Hr. unfold intern_incr, incr_inner.
  pose proof (slot_at_offset st k Hs Hk) as H1.
  pose proof (fun s k' => slot_of_put st k s k' Hs Hk) as H2.
  pose proof (fun s => put_shape st k s Hs) as H3.
  destruct (offset_to_idx k) as [i j]. rewrite H1, E. cbn [unwrap bind].
  rewrite (proj2 (Z.eqb_neq (refs s) (2 ^ 64 - 1))) by lia. rewrite andb_false_r.
  rewrite Z.mod_small by lia. eexists. split; [reflexivity|]. split; auto.
  split; [apply length_slot_put|]. intros k' Hk'. rewrite H2 by auto. rewrite E. reflexivity.
Qed.

Lemma intern_decr_spec st k s : shape st -> 0 <= k -> slot_of st k = Some s ->
  exists st', intern_decr k st = Ok st' /\ shape st' /\ length st' = length st /\
    forall k', 0 <= k' -> slot_of st' k' = if k =? k' then Some (Slot (if refs s =? 0 then 0 else refs s - 1) (cont s)) else slot_of st k'.
Proof.
  intros Hs Hk E. unfold intern_decr, decr_inner.
  pose proof (slot_at_offset st k Hs Hk) as H1.
  pose proof (fun s k' => slot_of_put st k s k' Hs Hk) as H2.
  pose proof (fun s => put_shape st k s Hs) as H3.
  destruct (offset_to_idx k) as [i j]. rewrite H1, E. cbn [unwrap bind].
  eexists. split; [reflexivity|]. split; auto.
  split; [apply length_slot_put|]. intros k' Hk'. rewrite H2 by auto. rewrite E. reflexivity.
Qed.

Lemma set_val_spec st i j v s : shape st -> (j < 32)%nat -> slot_of st (idx_to_offset i j) = Some s ->
  exists st', set_val st i j v = Ok st' /\ shape st' /\ length st' = length st /\
    forall k', 0 <= k' -> slot_of st' k' =
      if idx_to_offset i j =? k' then Some (Slot (refs s) (Some v)) else slot_of st k'.
Proof.
  intros Hs Hj E. unfold set_val. assert (0 <= idx_to_offset i j) as Hk by (unfold idx_to_offset; lia).
  pose proof (slot_at_offset st _ Hs Hk) as H1.
  pose proof (fun s k' => slot_of_put st _ s k' Hs Hk) as H2.
  pose proof (fun s => put_shape st (idx_to_offset i j) s Hs) as H3.
  rewrite (idx_of_offset i j Hj) in *. rewrite H1, E. cbn [unwrap bind].
  eexists. split; [reflexivity|]. split; auto.
  split; [apply length_slot_put|]. intros k' Hk'. rewrite H2 by auto. rewrite E. reflexivity.
Qed.

Lemma incr_inner_spec dbg st i j s : shape st -> (j < 32)%nat -> slot_of st (idx_to_offset i j) = Some s ->
  0 <= refs s < 2 ^ 64 - 1 ->
  exists st', incr_inner dbg st i j = Ok st' /\ shape st' /\ length st' = length st /\
    forall k', 0 <= k' -> slot_of st' k' =
      if idx_to_offset i j =? k' then Some (Slot (refs s + 1) (cont s)) else slot_of st k'.
Proof.
  intros Hs Hj E Hr.
  destruct (intern_incr_spec dbg st (idx_to_offset i j) s) as (st' & H); auto.
  - unfold idx_to_offset. lia.
  - unfold intern_incr in H. rewrite (idx_of_offset i j Hj) in H. eauto.
Qed.

Lemma try_get_spec st k s : shape st -> 0 <= k -> slot_of st k = Some s ->
  try_get st k = if refs s =? 0 then Ok None else match cont s with Some v => Ok (Some v) | None => Panic end.
Proof.
  intros Hs Hk E. unfold try_get. pose proof (slot_at_offset st k Hs Hk) as H1.
  destruct (offset_to_idx k) as [i j]. rewrite H1, E. reflexivity.
Qed.

Lemma slot_of_push st k : shape st -> 0 <= k ->
  slot_of (st ++ [new_chunk]) k =
    if k <? 32 * Z.of_nat (length st) then slot_of st k
    else if k <? 32 * Z.of_nat (length st) + 32 then Some new_uninit else None.
Proof.
  intros Hs Hk. unfold slot_of. rewrite (proj2 (Z.ltb_ge k 0)) by lia.
  rewrite flat_push. pose proof (length_flat st Hs) as L.
  destruct (Z.ltb_spec k (32 * Z.of_nat (length st))) as [H|H].
  - rewrite nth_error_app1 by lia. auto.
  - rewrite nth_error_app2 by lia.
    destruct (Z.ltb_spec k (32 * Z.of_nat (length st) + 32)) as [H'|H'].
    + apply nth_error_repeat. unfold chunk_size. lia.
    + apply nth_error_oob. unfold new_chunk, chunk_size. rewrite repeat_length. lia.
Qed.

Lemma slot_of_range st k : shape st -> 0 <= k ->
  (slot_of st k <> None <-> k < 32 * Z.of_nat (length st)).
Proof.
  intros Hs Hk. unfold slot_of. rewrite (proj2 (Z.ltb_ge k 0)) by lia.
  rewrite nth_error_Some, length_flat by auto. lia.
Qed.

Lemma slot_of_nat st k : slot_of st (Z.of_nat k) = nth_error (flat st) k.
Proof. unfold slot_of. rewrite (proj2 (Z.ltb_ge _ 0)) by lia. rewrite Nat2Z.id. auto. Qed.

(** What [add v] does: it returns the first slot that holds [v] or has no references, or the
    first slot of a new chunk if there is none; that slot gets one more reference and holds
    [v]; nothing else changes. *)
Lemma intern_add_spec dbg v st : shape st ->
  (forall k s, 0 <= k -> slot_of st k = Some s -> 0 <= refs s < 2 ^ 64 - 1) ->
  exists k st', intern_add eqb dbg v st = Ok (k, st') /\ 0 <= k /\ shape st' /\
    (forall k' s, 0 <= k' < k -> slot_of st k' = Some s -> passes v s) /\
    match slot_of st k with
    | Some s => (cont s = Some v \/ refs s = 0) /\ length st' = length st /\
        forall k', 0 <= k' -> slot_of st' k' =
          if k =? k' then Some (Slot (refs s + 1) (Some v)) else slot_of st k'
    | None => k = 32 * Z.of_nat (length st) /\ length st' = S (length st) /\
        forall k', 0 <= k' -> slot_of st' k' =
          if k =? k' then Some (Slot 1 (Some v))
          else if k' <? 32 * Z.of_nat (length st) + 32 then
            (if k' <? 32 * Z.of_nat (length st) then slot_of st k' else Some new_uninit)
          else None
    end.
Proof.
  intros Hs Hr. unfold intern_add. pose proof (find_chunk_spec v st Hs 0) as F.
  unfold find. destruct (find_chunk eqb v 0 st) as [i j|i j|].
  - destruct F as (_ & Hj & (s & E & Ec) & Hp). rewrite Nat.sub_0_r in *.
    assert (slot_of st (idx_to_offset i j) = Some s) as E'.
    { unfold idx_to_offset. rewrite <- E, <- slot_of_nat. f_equal. lia. }
    assert (0 <= idx_to_offset i j) as Hk by (unfold idx_to_offset; lia).
    destruct (incr_inner_spec dbg st i j s Hs Hj E' (Hr _ _ Hk E')) as (st' & E1 & Hs' & Hl & Hg).
    rewrite E1. cbn [bind]. exists (idx_to_offset i j), st'. split; auto. split; auto. split; auto. split.
    + intros k' s' Hk' E2. apply (Hp (Z.to_nat k')); [unfold idx_to_offset in Hk'; lia|].
      rewrite <- slot_of_nat, Z2Nat.id by lia. auto.
    + rewrite E'. split; auto. split; auto. intros k' Hk'. rewrite Hg by auto. rewrite Ec. auto.
  - destruct F as (_ & Hj & (s & E & E0 & Ec) & Hp). rewrite Nat.sub_0_r in *.
    assert (slot_of st (idx_to_offset i j) = Some s) as E'.
    { unfold idx_to_offset. rewrite <- E, <- slot_of_nat. f_equal. lia. }
    assert (0 <= idx_to_offset i j) as Hk by (unfold idx_to_offset; lia).
    destruct (incr_inner_spec dbg st i j s Hs Hj E' (Hr _ _ Hk E')) as (st' & E1 & Hs' & Hl & Hg).
    rewrite E1. cbn [bind].
    destruct (set_val_spec st' i j v (Slot (refs s + 1) (cont s)) Hs' Hj) as (st2 & E2 & Hs2 & Hl2 & Hg2).
    { rewrite Hg, Z.eqb_refl by auto. auto. }
    rewrite E2. cbn [bind]. exists (idx_to_offset i j), st2. split; auto. split; auto. split; auto. split.
    + intros k' s' Hk' E3. apply (Hp (Z.to_nat k')); [unfold idx_to_offset in Hk'; lia|].
      rewrite <- slot_of_nat, Z2Nat.id by lia. auto.
    + rewrite E'. split; auto. split; [congruence|]. intros k' Hk'. rewrite Hg2 by auto. cbn [refs].
      destruct (idx_to_offset i j =? k') eqn:Q; auto. rewrite Hg, Q by auto. auto.
  - cbn zeta. rewrite app_length. cbn [length].
    replace (length st + 1 - 1)%nat with (length st) by lia.
    set (st1 := st ++ [new_chunk]). assert (shape st1) as Hs1 by (apply shape_push; auto).
    assert (idx_to_offset (length st) 0 = 32 * Z.of_nat (length st)) as Ek by (unfold idx_to_offset; lia).
    assert (slot_of st1 (idx_to_offset (length st) 0) = Some new_uninit) as E'.
    { rewrite Ek. unfold st1. rewrite slot_of_push by (auto; lia).
      rewrite Z.ltb_irrefl, (proj2 (Z.ltb_lt _ _)) by lia. auto. }
    destruct (incr_inner_spec dbg st1 (length st) 0 new_uninit Hs1 ltac:(lia) E') as (st2 & E2 & Hs2 & Hl2 & Hg2).
    { cbn [refs new_uninit]. lia. }
    rewrite E2. cbn [bind].
    destruct (set_val_spec st2 (length st) 0 v (Slot 1 None) Hs2 ltac:(lia)) as (st3 & E3 & Hs3 & Hl3 & Hg3).
    { rewrite Hg2, Z.eqb_refl by lia. auto. }
    rewrite E3. cbn [bind]. exists (32 * Z.of_nat (length st)), st3.
    split; [f_equal; f_equal; lia|]. split; [lia|]. split; auto. split.
    + intros k' s' Hk' E4. apply (F (Z.to_nat k')).
      rewrite <- slot_of_nat, Z2Nat.id by lia. auto.
    + assert (slot_of st (32 * Z.of_nat (length st)) = None) as ->.
      { destruct (slot_of st (32 * Z.of_nat (length st))) eqn:Q; auto.
        assert (slot_of st (32 * Z.of_nat (length st)) <> None) as Q' by congruence.
        apply slot_of_range in Q'; auto; lia. }
      split; auto. split.
      { rewrite Hl3, Hl2. unfold st1. rewrite app_length. cbn. lia. }
      intros k' Hk'. rewrite Hg3 by auto. rewrite Ek in *. cbn [refs].
      destruct (32 * Z.of_nat (length st) =? k') eqn:Q; auto. rewrite Hg2, Q by auto.
      unfold st1. rewrite slot_of_push by auto.
      destruct (Z.ltb_spec k' (32 * Z.of_nat (length st))); auto.
      rewrite (proj2 (Z.ltb_lt k' (32 * Z.of_nat (length st) + 32))) by lia. auto.
Qed.

End Intern.
