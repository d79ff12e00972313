(** Invariants of the shared interner over all executions. *)
From Coq Require Import ZArith List Bool Lia.
From Verif Require Import Base Arith InternModel InternProofs ConcInternModel ConcInternSpec.
Import ListNotations.
Local Open Scope Z_scope.

(** ** Counting *)
Definition cnt {B} (f : B -> bool) (l : list B) : nat := length (filter f l).
Definition b2n (b : bool) : nat := if b then 1%nat else 0%nat.

Lemma cnt_upd {B} (f : B -> bool) l t x y : nth_error l t = Some y ->
  (cnt f (upd l t x) + b2n (f y) = cnt f l + b2n (f x))%nat.
Proof.
  revert t; induction l as [|a l IH]; intros [|t] E; cbn in E; try discriminate.
  - injection E as ->. unfold cnt. cbn. destruct (f x), (f y); cbn; lia.
  - unfold cnt in *. cbn. specialize (IH t E). destruct (f a); cbn; lia.
Qed.

Lemma cnt_app {B} (f : B -> bool) l l' : cnt f (l ++ l') = (cnt f l + cnt f l')%nat.
Proof. unfold cnt. rewrite filter_app, app_length. lia. Qed.

Lemma cnt_pos {B} (f : B -> bool) l t y : nth_error l t = Some y -> f y = true -> (1 <= cnt f l)%nat.
Proof.
  revert t; induction l as [|a l IH]; intros [|t] E H; cbn in E; try discriminate; unfold cnt in *; cbn.
  - injection E as ->. rewrite H. cbn. lia.
  - specialize (IH t E H). destruct (f a); cbn; lia.
Qed.

Lemma cnt_two {B} (f : B -> bool) l t t' y y' : t <> t' -> nth_error l t = Some y -> nth_error l t' = Some y' ->
  f y = true -> f y' = true -> (2 <= cnt f l)%nat.
Proof.
  revert t t'; induction l as [|a l IH]; intros [|t] [|t'] Hne E E' H H'; cbn in E, E'; try discriminate; try lia.
  - injection E as ->. pose proof (cnt_pos f l t' y' E' H'). unfold cnt in *. cbn. rewrite H. cbn. lia.
  - injection E' as ->. pose proof (cnt_pos f l t y E H). unfold cnt in *. cbn. rewrite H'. cbn. lia.
  - assert (Hn : t <> t') by congruence. specialize (IH t t' Hn E E' H H'). unfold cnt in *. cbn. destruct (f a); cbn; lia.
Qed.

Lemma cnt_zero {B} (f : B -> bool) l : (forall y, In y l -> f y = false) -> cnt f l = 0%nat.
Proof.
  induction l as [|a l IH]; intros H; [reflexivity|]. unfold cnt in *. cbn.
  rewrite (H a (or_introl eq_refl)). apply IH. intros y Hy. apply H. right. exact Hy.
Qed.

Lemma cnt_zero_inv {B} (f : B -> bool) l t y : cnt f l = 0%nat -> nth_error l t = Some y -> f y = false.
Proof.
  intros H E. destruct (f y) eqn:F; [|reflexivity]. pose proof (cnt_pos f l t y E F). lia.
Qed.

Lemma nth_upd_cases {B} (l : list B) i v j x : nth_error (upd l i v) j = Some x ->
  (j = i /\ x = v) \/ (j <> i /\ nth_error l j = Some x).
Proof.
  rewrite nth_error_upd. destruct (Nat.eqb_spec i j) as [<-|H]; cbn [andb].
  - destruct (Nat.ltb_spec i (length l)) as [Hl|Hl].
    + intros [= <-]. auto.
    + intros E. assert (nth_error l i = None) by (apply nth_error_None; lia). congruence.
  - intros E. right. auto.
Qed.

Section Inv.
Context {T : Type} (eqb : T -> T -> bool) (dbg : bool).
Implicit Types (st : store T) (cf : iconf T) (p : option (ipc T)) (h : handle T).

Definition hw (k : Z) h : bool := (hid h =? k) && match hst h with Gone => false | _ => true end.
Definition arr (k : Z) p : bool := match p with Some (SetVal _ i j) => idx_to_offset i j =? k | _ => false end.
Definition bor (n : nat) p : bool :=
  match p with Some (Incr m _) | Some (GetRefs m _) | Some (GetVal m _) => Nat.eqb m n | _ => false end.
Definition lev (n : nat) p : bool := match p with Some (Decr m _) => Nat.eqb m n | _ => false end.

Definition in_range st (i j : nat) : Prop := (i < length st)%nat /\ (j < 32)%nat.
Definition filled st (k : Z) : Prop := exists s, slot_of st k = Some s /\ cont s <> None.

Definition has_id (hs : list (handle T)) (n : nat) (k : Z) : Prop :=
  exists h, nth_error hs n = Some h /\ hid h = k.

Definition pc_in st (hs : list (handle T)) (p : ipc T) : Prop :=
  match p with
  | FindChunk _ i => (i <= length st)%nat
  | FindRefs _ i j | FindVal _ i j _ | IncrDead _ i j | SetVal _ i j => in_range st i j
  | IncrLive _ i j => in_range st i j /\ filled st (idx_to_offset i j)
  | PushHead _ | PushTail _ => True
  | PushLink _ len => (len <= length st)%nat
  | Incr n k | Decr n k | GetRefs n k | GetVal n k => has_id hs n k
  | Broken => False
  end.

Definition borrow_ok (hs : list (handle T)) (ths : list (option (ipc T))) : Prop :=
  forall n,
  match option_map hst (nth_error hs n) with
  | Some (Held b) => cnt (bor n) ths = b /\ cnt (lev n) ths = 0%nat
  | Some Leaving => cnt (bor n) ths = 0%nat /\ cnt (lev n) ths = 1%nat
  | _ => cnt (bor n) ths = 0%nat /\ cnt (lev n) ths = 0%nat
  end.

Record iinv (N : nat) cf : Prop := {
  ij_shape : shape (istore cf);
  ij_pc : forall t q, nth_error (ithreads cf) t = Some (Some q) -> pc_in (istore cf) (handles cf) q;
  ij_handles : forall n h, nth_error (handles cf) n = Some h -> 0 <= hid h /\ filled (istore cf) (hid h);
  ij_refs : forall k s, 0 <= k -> slot_of (istore cf) k = Some s ->
            refs s = Z.of_nat (cnt (hw k) (handles cf) + cnt (arr k) (ithreads cf));
  ij_bor : borrow_ok (handles cf) (ithreads cf);
  ij_bound : forall k s, 0 <= k -> slot_of (istore cf) k = Some s -> refs s <= Z.of_nat N;
  ij_reads : forall n o, In (n, o) (reads cf) -> o <> None }.

Definition grows st st' : Prop :=
  shape st' /\ (length st <= length st')%nat /\ forall k, 0 <= k -> filled st k -> filled st' k.

Lemma grows_refl st : shape st -> grows st st.
Proof. intros H. repeat split; auto. Qed.

Definition hgrows (hs hs' : list (handle T)) : Prop := forall n k, has_id hs n k -> has_id hs' n k.

Lemma pc_in_grows st st' hs hs' (p : ipc T) : grows st st' -> hgrows hs hs' -> pc_in st hs p -> pc_in st' hs' p.
Proof.
  intros (_ & HL & HF) HH. destruct p; cbn; unfold in_range; auto; try lia.
  intros [[H1 H2] H3]. split; [lia|]. apply HF; [unfold idx_to_offset; lia|exact H3].
Qed.

Lemma offset_nonneg i j : 0 <= idx_to_offset i j.
Proof. unfold idx_to_offset. lia. Qed.

Lemma in_range_slot st i j : shape st -> in_range st i j -> exists s, slot_of st (idx_to_offset i j) = Some s.
Proof.
  intros Hs [H1 H2]. destruct (slot_of st (idx_to_offset i j)) as [s|] eqn:E; [eauto|].
  exfalso. apply (proj2 (slot_of_range st _ Hs (offset_nonneg i j))); [|exact E]. unfold idx_to_offset. lia.
Qed.

Lemma slot_at_of st i j : shape st -> (j < 32)%nat -> slot_at st i j = unwrap (slot_of st (idx_to_offset i j)).
Proof.
  intros Hs Hj. pose proof (slot_at_offset st (idx_to_offset i j) Hs (offset_nonneg i j)) as H.
  rewrite idx_of_offset in H by exact Hj. exact H.
Qed.

Ltac simp := cbn [istore ithreads handles reads set_thread set_store add_handle add_read finish hid hval hst].

(** A step of thread [t]. *)
Lemma iinv_step N N' cf cf' t p p' : iinv N cf ->
  nth_error (ithreads cf) t = Some p ->
  ithreads cf' = upd (ithreads cf) t p' ->
  grows (istore cf) (istore cf') ->
  hgrows (handles cf) (handles cf') ->
  (forall q, p' = Some q -> pc_in (istore cf') (handles cf') q) ->
  (forall n h, nth_error (handles cf') n = Some h -> 0 <= hid h /\ filled (istore cf') (hid h)) ->
  (forall k s, 0 <= k -> slot_of (istore cf') k = Some s ->
     refs s + Z.of_nat (b2n (arr k p)) =
     Z.of_nat (cnt (hw k) (handles cf') + cnt (arr k) (ithreads cf) + b2n (arr k p'))) ->
  borrow_ok (handles cf') (ithreads cf') ->
  (forall k s, 0 <= k -> slot_of (istore cf') k = Some s -> refs s <= Z.of_nat N') ->
  (forall n o, In (n, o) (reads cf') -> o <> None) ->
  iinv N' cf'.
Proof.
  intros HI Et ET HG HH Hp Hh Hr Hb HB HR. constructor; auto.
  - apply HG.
  - intros t' q E. rewrite ET in E. apply nth_upd_cases in E. destruct E as [[-> E]|[_ E]].
    + apply Hp. auto.
    + eapply pc_in_grows; eauto. apply (ij_pc _ _ HI _ _ E).
  - intros k s Hk E. specialize (Hr k s Hk E). rewrite ET.
    pose proof (cnt_upd (arr k) _ _ p' _ Et). lia.
Qed.

Lemma borrow_plain hs ths t p p' : borrow_ok hs ths -> nth_error ths t = Some p ->
  (forall n, bor n p = bor n p' /\ lev n p = lev n p') -> borrow_ok hs (upd ths t p').
Proof.
  intros H Et Hw n. specialize (H n). destruct (Hw n) as [W1 W2].
  pose proof (cnt_upd (bor n) _ _ p' _ Et) as C1. pose proof (cnt_upd (lev n) _ _ p' _ Et) as C2.
  rewrite W1 in C1. rewrite W2 in C2.
  assert (cnt (bor n) (upd ths t p') = cnt (bor n) ths) as -> by lia.
  assert (cnt (lev n) (upd ths t p') = cnt (lev n) ths) as -> by lia. exact H.
Qed.

Lemma hgrows_refl hs : hgrows hs hs.
Proof. intros n k H. exact H. Qed.

Lemma hgrows_app hs h : hgrows hs (hs ++ [h]).
Proof.
  intros n k (x & E & Ek). exists x. split; [|exact Ek]. rewrite nth_error_app1; [exact E|].
  apply nth_error_Some. rewrite E. discriminate.
Qed.

Lemma borrow_app hs ths k v : borrow_ok hs ths -> borrow_ok (hs ++ [Handle k v (Held 0)]) ths.
Proof.
  intros H n. specialize (H n). destruct (Nat.lt_ge_cases n (length hs)) as [Hn|Hn].
  - rewrite nth_error_app1 by exact Hn. exact H.
  - rewrite (proj2 (nth_error_None hs n)) in H by exact Hn. cbn in H.
    rewrite nth_error_app2 by exact Hn. destruct (n - length hs)%nat as [|d]; cbn; [exact H|].
    destruct d; cbn; exact H.
Qed.

(** A step that only moves the thread. *)
Lemma iinv_goto N N' cf t (p q : ipc T) : (N <= N')%nat -> iinv N cf -> nth_error (ithreads cf) t = Some (Some p) ->
  (forall n, bor n (Some p) = bor n (Some q) /\ lev n (Some p) = lev n (Some q)) ->
  (forall k, arr k (Some p) = false) -> (forall k, arr k (Some q) = false) ->
  pc_in (istore cf) (handles cf) q ->
  iinv N' (set_thread cf t (Some q)).
Proof.
  intros HN HI Et Hw Ha Ha' Hq. pose proof HI as [J1 J2 J3 J4 J5 J6 J7].
  apply (iinv_step N N' cf _ t (Some p) (Some q)); simp; auto.
  - apply grows_refl, J1.
  - apply hgrows_refl.
  - intros q' [= <-]. exact Hq.
  - intros k s Hk E. rewrite (J4 k s Hk E), Ha, Ha'. cbn. lia.
  - eapply borrow_plain; eauto.
  - intros k s Hk E. specialize (J6 k s Hk E). lia.
Qed.

Lemma filled_put st st' k0 s0 (Hs : shape st') :
  (length st <= length st')%nat ->
  (forall k, 0 <= k -> slot_of st' k = if k0 =? k then Some s0 else slot_of st k) ->
  (filled st k0 -> cont s0 <> None) -> grows st st'.
Proof.
  intros HL H HC. split; [exact Hs|]. split; [exact HL|]. intros k Hk (s & E & Hc). unfold filled. rewrite H by exact Hk.
  destruct (Z.eqb_spec k0 k) as [->|_]; [|eauto]. exists s0. split; [reflexivity|]. apply HC. exists s. auto.
Qed.

Lemma nth_upd_same {B} (l : list B) n x y : nth_error l n = Some y -> nth_error (upd l n x) n = Some x.
Proof.
  intros E. rewrite nth_error_upd, Nat.eqb_refl.
  rewrite (proj2 (Nat.ltb_lt _ _)) by (apply nth_error_Some; rewrite E; discriminate). reflexivity.
Qed.

Lemma nth_upd_other {B} (l : list B) n m x : n <> m -> nth_error (upd l n x) m = nth_error l m.
Proof. intros H. rewrite nth_error_upd. destruct (Nat.eqb_spec n m); [congruence|reflexivity]. Qed.

Lemma hgrows_upd hs n k v s s' : nth_error hs n = Some (Handle k v s) -> hgrows hs (upd hs n (Handle k v s')).
Proof.
  intros En m k' (h & E & Ek). destruct (Nat.eq_dec n m) as [<-|Hmn].
  - exists (Handle k v s'). split; [eapply nth_upd_same; eauto|]. rewrite En in E. injection E as <-. exact Ek.
  - exists h. rewrite nth_upd_other; auto.
Qed.

Lemma iinv_take N cf t n k v b (q : ipc T) s' : iinv N cf -> nth_error (ithreads cf) t = Some None ->
  nth_error (handles cf) n = Some (Handle k v (Held b)) ->
  (q = Incr n k /\ s' = Held (b + 1)) \/ (q = GetRefs n k /\ s' = Held (b + 1)) \/
  (q = Decr n k /\ b = 0%nat /\ s' = Leaving) ->
  iinv N (set_thread (set_handle cf n s') t (Some q)).
Proof.
  intros HI Et En Hq. pose proof HI as [J1 J2 J3 J4 J5 J6 J7].
  assert (Hs : s' <> Gone) by (destruct Hq as [[_ ->]|[[_ ->]|(_ & _ & ->)]]; discriminate).
  unfold set_handle. rewrite En. cbn [hid hval].
  apply (iinv_step N N cf _ t None (Some q)); simp; auto.
  + apply grows_refl, J1.
  + eapply hgrows_upd; eauto.
  + intros q' [= <-]. assert (has_id (upd (handles cf) n (Handle k v s')) n k).
    { eexists. split; [eapply nth_upd_same; eauto|reflexivity]. }
    destruct Hq as [[-> _]|[[-> _]|(-> & _)]]; exact H.
  + intros m h E. apply nth_upd_cases in E. destruct E as [[-> ->]|[_ E]]; [|eauto]. cbn.
    apply (J3 _ _ En).
  + intros k' s Hk E. rewrite (J4 k' s Hk E).
    pose proof (cnt_upd (hw k') _ _ (Handle k v s') _ En) as C. unfold hw in C at 2 4. cbn in C.
    assert (arr k' (Some q) = false) as -> by (destruct Hq as [[-> _]|[[-> _]|(-> & _)]]; reflexivity).
    cbn [arr b2n]. destruct s'; [| |congruence]; lia.
  + intros m. specialize (J5 m).
    pose proof (cnt_upd (bor m) _ _ (Some q) _ Et) as C1.
    pose proof (cnt_upd (lev m) _ _ (Some q) _ Et) as C2.
    destruct (Nat.eq_dec n m) as [<-|Hnm].
    * rewrite (nth_upd_same _ _ _ _ En). rewrite En in J5.
      destruct Hq as [[-> ->]|[[-> ->]|(-> & -> & ->)]]; cbn in *; rewrite ?Nat.eqb_refl in *; cbn in *; lia.
    * rewrite nth_upd_other by exact Hnm. apply Nat.eqb_neq in Hnm.
      assert (bor m (Some q) = false /\ lev m (Some q) = false) as [B1 B2]
        by (destruct Hq as [[-> _]|[[-> _]|(-> & _)]]; cbn; auto).
      rewrite B1 in C1. rewrite B2 in C2. cbn [bor lev b2n] in C1, C2.
      replace (cnt (bor m) (upd (ithreads cf) t (Some q))) with (cnt (bor m) (ithreads cf)) by lia.
      replace (cnt (lev m) (upd (ithreads cf) t (Some q))) with (cnt (lev m) (ithreads cf)) by lia. exact J5.
Qed.

Lemma iinv_begin N cf t c : iinv N cf -> nth_error (ithreads cf) t = Some None -> iinv N (begin_call cf t c).
Proof.
  intros HI Et. pose proof HI as [J1 J2 J3 J4 J5 J6 J7]. destruct c as [v|n|n|n]; cbn [begin_call].
  - apply (iinv_step N N cf _ t None (Some (FindChunk v 0))); simp; auto.
    + apply grows_refl, J1. + apply hgrows_refl. + intros q [= <-]. cbn. lia.
    + intros k s Hk E. rewrite (J4 k s Hk E). cbn [arr b2n]. lia.
    + eapply borrow_plain; eauto.
  - destruct (nth_error (handles cf) n) as [[k v [b| |]]|] eqn:En; try exact HI.
    eapply iinv_take; eauto.
  - destruct (nth_error (handles cf) n) as [[k v [[|b]| |]]|] eqn:En; try exact HI.
    eapply iinv_take; eauto.
  - destruct (nth_error (handles cf) n) as [[k v [b| |]]|] eqn:En; try exact HI.
    eapply iinv_take; eauto.
Qed.

(** The count of a slot goes up by one in an increment. *)
Lemma bump st st' k0 s0 d (hs : list (handle T)) (ths : list (option (ipc T))) :
  0 <= k0 -> slot_of st k0 = Some s0 ->
  (forall k, 0 <= k -> slot_of st' k = if k0 =? k then Some (Slot (refs s0 + d) (cont s0)) else slot_of st k) ->
  (forall k s, 0 <= k -> slot_of st k = Some s -> refs s = Z.of_nat (cnt (hw k) hs + cnt (arr k) ths)) ->
  forall k s, 0 <= k -> slot_of st' k = Some s ->
  refs s = Z.of_nat (cnt (hw k) hs + cnt (arr k) ths) + (if k0 =? k then d else 0).
Proof.
  intros Hk0 E0 H HR k s Hk E. rewrite H in E by exact Hk. destruct (Z.eqb_spec k0 k) as [<-|_].
  - injection E as <-. cbn [refs]. rewrite (HR _ _ Hk E0). reflexivity.
  - rewrite (HR _ _ Hk E). lia.
Qed.

Lemma hw_new k k' v : hw k' (Handle (T := T) k v (Held 0)) = (k =? k').
Proof. unfold hw. cbn. apply andb_true_r. Qed.

Lemma cnt_new k k' v : cnt (hw k') [Handle (T := T) k v (Held 0)] = b2n (k =? k').
Proof. unfold cnt. cbn [filter]. rewrite hw_new. destruct (k =? k'); reflexivity. Qed.

(** The handle used by a call in progress. *)
Lemma in_use cf N t n k q : iinv N cf -> nth_error (ithreads cf) t = Some (Some q) ->
  q = Incr n k \/ q = GetRefs n k \/ q = GetVal n k ->
  exists v b, nth_error (handles cf) n = Some (Handle k v (Held (S b))) /\ cnt (bor n) (ithreads cf) = S b /\
              cnt (lev n) (ithreads cf) = 0%nat.
Proof.
  intros HI Et Hq. pose proof (ij_pc _ _ HI _ _ Et) as Hp.
  assert (Hid : has_id (handles cf) n k) by (destruct Hq as [->|[->| ->]]; exact Hp).
  destruct Hid as ([k' v s] & En & Ek). cbn in Ek. subst k'.
  pose proof (ij_bor _ _ HI n) as Hb. rewrite En in Hb. cbn in Hb.
  assert (1 <= cnt (bor n) (ithreads cf))%nat.
  { eapply cnt_pos; [exact Et|]. destruct Hq as [->|[->| ->]]; cbn; apply Nat.eqb_refl. }
  destruct s as [b| |]; [|lia|lia]. destruct b as [|b]; [lia|]. exists v, b. repeat split; auto; lia.
Qed.

Lemma leaving cf N t n k : iinv N cf -> nth_error (ithreads cf) t = Some (Some (Decr n k)) ->
  exists v, nth_error (handles cf) n = Some (Handle k v Leaving) /\ cnt (bor n) (ithreads cf) = 0%nat /\
            cnt (lev n) (ithreads cf) = 1%nat.
Proof.
  intros HI Et. pose proof (ij_pc _ _ HI _ _ Et) as Hp. destruct Hp as ([k' v s] & En & Ek). cbn in Ek. subst k'.
  pose proof (ij_bor _ _ HI n) as Hb. rewrite En in Hb. cbn in Hb.
  assert (1 <= cnt (lev n) (ithreads cf))%nat by (eapply cnt_pos; [exact Et|]; cbn; apply Nat.eqb_refl).
  destruct s as [b| |]; [lia| |lia]. exists v. auto.
Qed.

Lemma borrow_return hs ths t n k v b (q : ipc T) : borrow_ok hs ths -> nth_error ths t = Some (Some q) ->
  q = Incr n k \/ q = GetRefs n k \/ q = GetVal n k ->
  nth_error hs n = Some (Handle k v (Held (S b))) ->
  borrow_ok (upd hs n (Handle k v (Held b))) (upd ths t None).
Proof.
  intros H Et Hq En m. specialize (H m).
  pose proof (cnt_upd (bor m) _ _ None _ Et) as C1. pose proof (cnt_upd (lev m) _ _ None _ Et) as C2.
  destruct (Nat.eq_dec n m) as [<-|Hnm].
  - rewrite (nth_upd_same _ _ _ _ En). rewrite En in H.
    destruct Hq as [->|[->| ->]]; cbn in *; rewrite Nat.eqb_refl in *; cbn in *; lia.
  - rewrite nth_upd_other by exact Hnm. apply Nat.eqb_neq in Hnm.
    assert (bor m (Some q) = false /\ lev m (Some q) = false) as [B1 B2]
      by (destruct Hq as [->|[->| ->]]; cbn; auto).
    rewrite B1 in C1. rewrite B2 in C2. cbn [bor lev b2n] in C1, C2.
    replace (cnt (bor m) (upd ths t None)) with (cnt (bor m) ths) by lia.
    replace (cnt (lev m) (upd ths t None)) with (cnt (lev m) ths) by lia. exact H.
Qed.

Lemma handles_grow st st' (hs : list (handle T)) : grows st st' ->
  (forall n h, nth_error hs n = Some h -> 0 <= hid h /\ filled st (hid h)) ->
  forall n h, nth_error hs n = Some h -> 0 <= hid h /\ filled st' (hid h).
Proof. intros (_ & _ & HG) H n h E. destruct (H n h E). auto. Qed.

Lemma handles_app st (hs : list (handle T)) k v s :
  (forall n h, nth_error hs n = Some h -> 0 <= hid h /\ filled st (hid h)) -> 0 <= k -> filled st k ->
  forall n h, nth_error (hs ++ [Handle k v s]) n = Some h -> 0 <= hid h /\ filled st (hid h).
Proof.
  intros H Hk Hf n h E. destruct (Nat.lt_ge_cases n (length hs)) as [Hn|Hn].
  - rewrite nth_error_app1 in E by exact Hn. eauto.
  - rewrite nth_error_app2 in E by exact Hn. destruct (n - length hs)%nat as [|d]; cbn in E.
    + injection E as <-. cbn. auto.
    + destruct d; discriminate.
Qed.

Lemma handles_upd st (hs : list (handle T)) m k v s s' :
  (forall n h, nth_error hs n = Some h -> 0 <= hid h /\ filled st (hid h)) ->
  nth_error hs m = Some (Handle k v s) ->
  forall n h, nth_error (upd hs m (Handle k v s')) n = Some h -> 0 <= hid h /\ filled st (hid h).
Proof.
  intros H Em n h E. apply nth_upd_cases in E. destruct E as [[-> ->]|[_ E]]; [|eauto].
  apply (H _ _ Em).
Qed.

Lemma grows_push st : shape st -> grows st (st ++ [new_chunk]).
Proof.
  intros Hs. split; [apply shape_push, Hs|]. split; [rewrite app_length; lia|].
  intros k Hk (s & E & Hc). exists s. split; [|exact Hc]. rewrite slot_of_push by auto.
  rewrite (proj2 (Z.ltb_lt _ _)); [exact E|]. apply slot_of_range; [exact Hs|exact Hk|congruence].
Qed.

Lemma held_pos (hs : list (handle T)) n k v s : nth_error hs n = Some (Handle k v s) -> s <> Gone ->
  (1 <= cnt (hw k) hs)%nat.
Proof.
  intros E Hs. eapply cnt_pos; [exact E|]. unfold hw. cbn. rewrite Z.eqb_refl. destruct s; auto.
Qed.

Lemma push_refs st ths (hs : list (handle T)) : shape st ->
  (forall n h, nth_error hs n = Some h -> 0 <= hid h /\ filled st (hid h)) ->
  (forall t q, nth_error ths t = Some (Some q) -> pc_in st hs q) ->
  (forall k s, 0 <= k -> slot_of st k = Some s -> refs s = Z.of_nat (cnt (hw k) hs + cnt (arr k) ths)) ->
  forall k s, 0 <= k -> slot_of (st ++ [new_chunk]) k = Some s ->
  refs s = Z.of_nat (cnt (hw k) hs + cnt (arr k) ths).
Proof.
  intros Hs Hh Hp Hr k s Hk E. rewrite slot_of_push in E by auto.
  destruct (Z.ltb_spec k (32 * Z.of_nat (length st))) as [Hlt|Hge]; [eauto|].
  destruct (k <? 32 * Z.of_nat (length st) + 32); [|discriminate]. injection E as <-. cbn [new_uninit refs].
  rewrite (cnt_zero (hw k)), (cnt_zero (arr k)); [reflexivity| |].
  - intros p Hin. apply In_nth_error in Hin. destruct Hin as [t Et].
    destruct p as [q|]; [|reflexivity]. specialize (Hp _ _ Et). destruct q; try reflexivity. cbn [arr]. cbn [pc_in] in Hp.
    destruct Hp as [H1 H2]. apply Z.eqb_neq. unfold idx_to_offset. lia.
  - intros h Hin. apply In_nth_error in Hin. destruct Hin as [n En]. destruct (Hh _ _ En) as (Hn & x & Ex & _).
    unfold hw. replace (hid h =? k) with false; [reflexivity|]. symmetry. apply Z.eqb_neq. intros <-.
    assert (hid h < 32 * Z.of_nat (length st)) by (apply slot_of_range; [exact Hs|exact Hn|congruence]). lia.
Qed.

Lemma push_bound st N : shape st ->
  (forall k s, 0 <= k -> slot_of st k = Some s -> refs s <= Z.of_nat N) ->
  forall k (s : slot T), 0 <= k -> slot_of (st ++ [new_chunk]) k = Some s -> refs s <= Z.of_nat N.
Proof.
  intros Hs H k s Hk E. rewrite slot_of_push in E by auto.
  destruct (k <? 32 * Z.of_nat (length st)); [eauto|].
  destruct (k <? 32 * Z.of_nat (length st) + 32); [|discriminate]. injection E as <-. cbn. lia.
Qed.

Lemma iinv_istep N cf t q : iinv N cf -> Z.of_nat N < 2 ^ 64 - 1 ->
  nth_error (ithreads cf) t = Some (Some q) -> iinv (S N) (istep eqb dbg cf t q).
Proof.
  intros HI HN Et. pose proof HI as [J1 J2 J3 J4 J5 J6 J7]. pose proof (J2 _ _ Et) as Hq.
  assert (HN' : (N <= S N)%nat) by lia.
  assert (J6' : forall k s, 0 <= k -> slot_of (istore cf) k = Some s -> refs s <= Z.of_nat (S N))
    by (intros k s Hk E; specialize (J6 k s Hk E); lia).
  assert (Hlow : forall k s, 0 <= k -> slot_of (istore cf) k = Some s -> 0 <= refs s < 2 ^ 64 - 1).
  { intros k s Hk E. specialize (J6 k s Hk E). rewrite (J4 k s Hk E) in *. lia. }
  destruct q as [v i|v i j|v i j c|v i j|v i j|v i j|v|v|v len|n k|n k|n k|n k|]; cbn [istep].
  - (* FindChunk *)
    destruct (Nat.ltb_spec i (length (istore cf))) as [Hi|Hi];
      (eapply iinv_goto; [exact HN'|exact HI|exact Et|cbn; auto|cbn; auto|cbn; auto|]); cbn; unfold in_range; auto; lia.
  - (* FindRefs *)
    destruct (in_range_slot _ _ _ J1 Hq) as [s Es]. rewrite slot_at_of by (auto; apply Hq). rewrite Es. cbn [unwrap].
    eapply iinv_goto; [exact HN'|exact HI|exact Et|cbn; auto|cbn; auto|cbn; auto|exact Hq].
  - (* FindVal *)
    destruct (in_range_slot _ _ _ J1 Hq) as [s Es]. rewrite slot_at_of by (auto; apply Hq). rewrite Es. cbn [unwrap].
    destruct (match cont s with Some cur => eqb v cur | None => false end) eqn:Ec.
    { eapply iinv_goto; [exact HN'|exact HI|exact Et|cbn; auto|cbn; auto|cbn; auto|].
      split; [exact Hq|]. exists s. split; [exact Es|]. destruct (cont s); discriminate. }
    destruct (c =? 0).
    { eapply iinv_goto; [exact HN'|exact HI|exact Et|cbn; auto|cbn; auto|cbn; auto|exact Hq]. }
    cbn in Hq. destruct Hq as [Hi Hj]. destruct (Nat.ltb_spec (S j) chunk_size) as [Hc|Hc]; unfold chunk_size in Hc;
      (eapply iinv_goto; [exact HN'|exact HI|exact Et|cbn; auto|cbn; auto|cbn; auto|]); cbn; unfold in_range; lia.
  - (* IncrLive *)
    destruct Hq as [Hr Hf]. destruct (in_range_slot _ _ _ J1 Hr) as [s Es].
    destruct (incr_inner_spec dbg (istore cf) i j s J1 (proj2 Hr) Es (Hlow _ _ (offset_nonneg i j) Es))
      as (st' & E1 & S1 & L1 & F1). rewrite E1. cbn [with_store].
    assert (HG : grows (istore cf) st').
    { eapply filled_put; [exact S1|lia|exact F1|]. intros (s' & Es' & Hc). cbn. congruence. }
    apply (iinv_step N (S N) cf _ t (Some (IncrLive v i j)) None); simp; auto.
    + apply hgrows_app.
    + discriminate.
    + apply handles_app; [eapply handles_grow; eauto|apply offset_nonneg|]. apply HG; [apply offset_nonneg|exact Hf].
    + intros k s' Hk E. rewrite (bump _ _ _ _ 1 _ _ (offset_nonneg i j) Es F1 J4 k s' Hk E).
      rewrite cnt_app. rewrite cnt_new. cbn [arr b2n].
      destruct (idx_to_offset i j =? k); cbn [b2n]; lia.
    + eapply borrow_plain; [apply borrow_app, J5|exact Et|]. cbn. auto.
    + intros k s' Hk E. rewrite F1 in E by exact Hk. destruct (idx_to_offset i j =? k); [|eauto].
      injection E as <-. cbn. specialize (J6 _ _ (offset_nonneg i j) Es). lia.
  - (* IncrDead *)
    destruct (in_range_slot _ _ _ J1 Hq) as [s Es].
    destruct (incr_inner_spec dbg (istore cf) i j s J1 (proj2 Hq) Es (Hlow _ _ (offset_nonneg i j) Es))
      as (st' & E1 & S1 & L1 & F1). rewrite E1. cbn [with_store].
    assert (HG : grows (istore cf) st').
    { eapply filled_put; [exact S1|lia|exact F1|]. intros (s' & Es' & Hc). cbn. congruence. }
    apply (iinv_step N (S N) cf _ t (Some (IncrDead v i j)) (Some (SetVal v i j))); simp; auto.
    + apply hgrows_refl.
    + intros q [= <-]. cbn in *. unfold in_range in *. rewrite L1. exact Hq.
    + eapply handles_grow; eauto.
    + intros k s' Hk E. rewrite (bump _ _ _ _ 1 _ _ (offset_nonneg i j) Es F1 J4 k s' Hk E). cbn [arr].
      destruct (idx_to_offset i j =? k); cbn [b2n]; lia.
    + eapply borrow_plain; [exact J5|exact Et|]. cbn. auto.
    + intros k s' Hk E. rewrite F1 in E by exact Hk. destruct (idx_to_offset i j =? k); [|eauto].
      injection E as <-. cbn. specialize (J6 _ _ (offset_nonneg i j) Es). lia.
  - (* SetVal *)
    destruct (in_range_slot _ _ _ J1 Hq) as [s Es].
    destruct (set_val_spec (istore cf) i j v s J1 (proj2 Hq) Es) as (st' & E1 & S1 & L1 & F1). rewrite E1. cbn [with_store].
    assert (HG : grows (istore cf) st').
    { eapply filled_put; [exact S1|lia|exact F1|]. cbn. discriminate. }
    apply (iinv_step N (S N) cf _ t (Some (SetVal v i j)) None); simp; auto.
    + apply hgrows_app.
    + discriminate.
    + apply handles_app; [eapply handles_grow; eauto|apply offset_nonneg|].
      exists (Slot (refs s) (Some v)). rewrite F1, Z.eqb_refl by apply offset_nonneg. split; [reflexivity|discriminate].
    + intros k s' Hk E. assert (E' : refs s' = Z.of_nat (cnt (hw k) (handles cf) + cnt (arr k) (ithreads cf))).
      { rewrite F1 in E by exact Hk. destruct (Z.eqb_spec (idx_to_offset i j) k) as [<-|_]; [|eauto].
        injection E as <-. cbn. eauto. }
      rewrite E'. rewrite cnt_app. rewrite cnt_new. cbn [arr b2n].
      destruct (idx_to_offset i j =? k); cbn [b2n]; lia.
    + eapply borrow_plain; [apply borrow_app, J5|exact Et|]. cbn. auto.
    + intros k s' Hk E. rewrite F1 in E by exact Hk. destruct (idx_to_offset i j =? k); [|eauto].
      injection E as <-. cbn. specialize (J6 _ _ (offset_nonneg i j) Es). lia.
  - (* PushHead *)
    destruct (istore cf) as [|c0 st0] eqn:Est in |- *.
    + replace [new_chunk] with (istore cf ++ [new_chunk] : store T) by (rewrite Est; reflexivity).
      apply (iinv_step N (S N) cf _ t (Some (PushHead v)) (Some (IncrDead v 0 0))); simp; auto.
      * apply grows_push, J1.
      * apply hgrows_refl.
      * intros q [= <-]. cbn. unfold in_range. rewrite app_length. cbn. lia.
      * eapply handles_grow; [apply grows_push, J1|exact J3].
      * intros k s Hk E. rewrite (push_refs _ _ _ J1 J3 J2 J4 k s Hk E). cbn [arr b2n]. lia.
      * eapply borrow_plain; [exact J5|exact Et|]. cbn. auto.
      * apply push_bound; auto.
    + eapply iinv_goto; [exact HN'|exact HI|exact Et|cbn; auto|cbn; auto|cbn; auto|exact I].
  - (* PushTail *)
    eapply iinv_goto; [exact HN'|exact HI|exact Et|cbn; auto|cbn; auto|cbn; auto|cbn; lia].
  - (* PushLink *)
    apply (iinv_step N (S N) cf _ t (Some (PushLink v len)) (Some (IncrDead v (len + 1 - 1) 0))); simp; auto.
    + apply grows_push, J1.
    + apply hgrows_refl.
    + intros q [= <-]. cbn in *. unfold in_range. rewrite app_length. cbn [length]. lia.
    + eapply handles_grow; [apply grows_push, J1|exact J3].
    + intros k s Hk E. rewrite (push_refs _ _ _ J1 J3 J2 J4 k s Hk E). cbn [arr b2n]. lia.
    + eapply borrow_plain; [exact J5|exact Et|]. cbn. auto.
    + apply push_bound; auto.
  - (* Incr *)
    destruct (in_use _ _ _ _ _ _ HI Et (or_introl eq_refl)) as (v & b & En & Cb & Cl).
    destruct (J3 _ _ En) as (Hk & s & Es & Hc). cbn [hid] in Hk, Es.
    destruct (intern_incr_spec dbg (istore cf) k s J1 Hk Es (Hlow _ _ Hk Es)) as (st' & E1 & S1 & L1 & F1).
    rewrite E1. cbn [with_store]. simp. rewrite En. unfold unborrow, set_handle. simp. rewrite ?En. simp. rewrite ?En. simp.
    replace (S b - 1)%nat with b by lia.
    assert (HG : grows (istore cf) st').
    { eapply filled_put; [exact S1|lia|exact F1|]. intros (s' & Es' & Hc'). cbn. congruence. }
    apply (iinv_step N (S N) cf _ t (Some (Incr n k)) None); simp; auto.
    + intros m k' Hm. apply hgrows_app. eapply hgrows_upd; eauto.
    + discriminate.
    + apply handles_app; [|exact Hk|apply HG; [exact Hk|exists s; auto]].
      eapply handles_upd; [eapply handles_grow; eauto|exact En].
    + intros k' s' Hk' E. rewrite (bump _ _ _ _ 1 _ _ Hk Es F1 J4 k' s' Hk' E).
      rewrite cnt_app. pose proof (cnt_upd (hw k') _ _ (Handle k v (Held b)) _ En) as C.
      unfold hw in C at 2 4. cbn in C. rewrite cnt_new. cbn [arr b2n].
      destruct (k =? k'); cbn [b2n]; cbn in C; lia.
    + apply borrow_app. eapply borrow_return; eauto.
    + intros k' s' Hk' E. rewrite F1 in E by exact Hk'. destruct (k =? k'); [|eauto].
      injection E as <-. cbn. specialize (J6 _ _ Hk Es). lia.
  - (* Decr *)
    destruct (leaving _ _ _ _ _ HI Et) as (v & En & Cb & Cl).
    destruct (J3 _ _ En) as (Hk & s & Es & Hc). cbn [hid] in Hk, Es.
    pose proof (held_pos _ _ _ _ _ En ltac:(discriminate)) as Hpos.
    assert (Hr : 1 <= refs s) by (rewrite (J4 _ _ Hk Es); lia).
    destruct (intern_decr_spec (istore cf) k s J1 Hk Es) as (st' & E1 & S1 & L1 & F1).
    rewrite (proj2 (Z.eqb_neq (refs s) 0)) in F1 by lia.
    rewrite E1. cbn [with_store]. unfold set_handle. simp. rewrite En. simp.
    assert (HG : grows (istore cf) st').
    { eapply filled_put; [exact S1|lia|exact F1|]. intros (s' & Es' & Hc'). cbn. congruence. }
    apply (iinv_step N (S N) cf _ t (Some (Decr n k)) None); simp; auto.
    + eapply hgrows_upd; eauto.
    + discriminate.
    + eapply handles_upd; [eapply handles_grow; eauto|exact En].
    + intros k' s' Hk' E. rewrite (bump _ _ _ _ (-1) _ _ Hk Es F1 J4 k' s' Hk' E).
      pose proof (cnt_upd (hw k') _ _ (Handle k v Gone) _ En) as C.
      unfold hw in C at 2 4. cbn in C. cbn [arr b2n].
      destruct (Z.eqb_spec k k') as [<-|_]; cbn in C; lia.
    + intros m. specialize (J5 m).
      pose proof (cnt_upd (bor m) _ _ None _ Et) as C1. pose proof (cnt_upd (lev m) _ _ None _ Et) as C2.
      destruct (Nat.eq_dec n m) as [<-|Hnm].
      * rewrite (nth_upd_same _ _ _ _ En). cbn in *. rewrite Nat.eqb_refl in C2. cbn in C2. lia.
      * rewrite nth_upd_other by exact Hnm. apply Nat.eqb_neq in Hnm. cbn in C1, C2. rewrite Hnm in C2. cbn in C2.
        replace (cnt (bor m) (upd (ithreads cf) t None)) with (cnt (bor m) (ithreads cf)) by lia.
        replace (cnt (lev m) (upd (ithreads cf) t None)) with (cnt (lev m) (ithreads cf)) by lia. exact J5.
    + intros k' s' Hk' E. rewrite F1 in E by exact Hk'. destruct (k =? k'); [|eauto].
      injection E as <-. cbn. specialize (J6 _ _ Hk Es). lia.
  - (* GetRefs *)
    destruct (in_use _ _ _ _ _ _ HI Et (or_intror (or_introl eq_refl))) as (v & b & En & Cb & Cl).
    destruct (J3 _ _ En) as (Hk & s & Es & Hc). cbn [hid] in Hk, Es.
    pose proof (held_pos _ _ _ _ _ En ltac:(discriminate)) as Hpos.
    assert (Hr : 1 <= refs s) by (rewrite (J4 _ _ Hk Es); lia).
    unfold refcount. pose proof (slot_at_offset (istore cf) k J1 Hk) as Hs. destruct (offset_to_idx k) as [i j].
    rewrite Hs, Es. cbn [unwrap bind]. rewrite (proj2 (Z.eqb_neq (refs s) 0)) by lia.
    eapply iinv_goto; [exact HN'|exact HI|exact Et|cbn; auto|cbn; auto|cbn; auto|exact Hq].
  - (* GetVal *)
    destruct (in_use _ _ _ _ _ _ HI Et (or_intror (or_intror eq_refl))) as (v & b & En & Cb & Cl).
    destruct (J3 _ _ En) as (Hk & s & Es & Hc). cbn [hid] in Hk, Es.
    pose proof (slot_at_offset (istore cf) k J1 Hk) as Hs. destruct (offset_to_idx k) as [i j].
    rewrite Hs, Es. cbn [unwrap]. destruct (cont s) as [x|] eqn:Ex; [|congruence].
    unfold unborrow, set_handle. simp. rewrite ?En. simp. rewrite ?En. simp. replace (S b - 1)%nat with b by lia.
    apply (iinv_step N (S N) cf _ t (Some (GetVal n k)) None); simp; auto.
    + apply grows_refl, J1.
    + eapply hgrows_upd; eauto.
    + discriminate.
    + eapply handles_upd; eauto.
    + intros k' s' Hk' E. rewrite (J4 _ _ Hk' E).
      pose proof (cnt_upd (hw k') _ _ (Handle k v (Held b)) _ En) as C. unfold hw in C at 2 4. cbn in C. cbn [arr b2n]. lia.
    + eapply borrow_return; eauto.
    + intros m o Hin. apply in_app_iff in Hin. destruct Hin as [Hin|[Hin|[]]]; [eauto|]. injection Hin as <- <-. discriminate.
  - destruct Hq.
Qed.

End Inv.
