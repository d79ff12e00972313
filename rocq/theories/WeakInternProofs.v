(** The shared interner under weak memory, with calls of [add] made under a lock: invariant. *)
From Coq Require Import ZArith List Bool PeanoNat Lia.
From Verif Require Import Base ConcInternModel ConcInternProofs WeakInternModel WeakInternSpec.
Import ListNotations.
Local Open Scope Z_scope.

Lemma bound_incl V V' k : incl V V' -> (bound V k <= bound V' k)%nat.
Proof.
  assert (forall p, In (Pos k p) V' -> (p <= bound V' k)%nat) as H.
  { induction V' as [|x V' IH]; cbn; [tauto|]. intros p [->|Hp].
    - rewrite Nat.eqb_refl. lia.
    - specialize (IH p Hp). destruct x as [e|k' q|e]; [lia| |lia]. destruct (Nat.eqb k' k); lia. }
  induction V as [|x V IH]; intros HI; cbn; [lia|].
  assert (incl V V') as HI' by (intros y Hy; apply HI; right; exact Hy). specialize (IH HI').
  destruct x as [e|k' q|e]; [lia| |lia]. destruct (Nat.eqb_spec k' k) as [->|_]; [|lia].
  pose proof (H q (HI _ (or_introl eq_refl))). lia.
Qed.

Lemma nth_app_cases {B} (l l' : list B) i x : nth_error (l ++ l') i = Some x ->
  nth_error l i = Some x \/ ((length l <= i)%nat /\ nth_error l' (i - length l) = Some x).
Proof.
  intros E. destruct (Nat.lt_ge_cases i (length l)) as [H|H].
  - left. rewrite nth_error_app1 in E; auto.
  - right. rewrite nth_error_app2 in E; auto.
Qed.
Lemma nth_snoc_cases {B} (l : list B) y i x : nth_error (l ++ [y]) i = Some x ->
  nth_error l i = Some x \/ (i = length l /\ x = y).
Proof.
  intros E. destruct (nth_app_cases _ _ _ _ E) as [H|[H H']]; [auto|]. right.
  destruct (i - length l)%nat as [|d] eqn:D; cbn in H'; [|destruct d; discriminate]. injection H' as <-. split; [lia|auto].
Qed.
Lemma nth_app_l {B} (l l' : list B) i x : nth_error l i = Some x -> nth_error (l ++ l') i = Some x.
Proof. intros E. rewrite nth_error_app1; auto. apply nth_error_Some. congruence. Qed.
Lemma nth_lt {B} (l : list B) i x : nth_error l i = Some x -> (i < length l)%nat.
Proof. intros E. apply nth_error_Some. congruence. Qed.
Lemma nth_last {B} (l : list B) p x d : nth_error l p = Some x -> (length l <= S p)%nat -> x = last l d.
Proof.
  intros E H. pose proof (nth_lt _ _ _ E). destruct l as [|y l] using rev_ind; [destruct p; discriminate|].
  rewrite last_last. rewrite app_length in *. cbn in *. destruct (nth_snoc_cases _ _ _ _ E) as [E'|[_ ->]]; [|auto].
  pose proof (nth_lt _ _ _ E'). lia.
Qed.
Lemma last_nth_error {B} (l : list B) d : l <> [] -> nth_error l (length l - 1) = Some (last l d).
Proof.
  intros H. destruct l as [|y l] using rev_ind; [congruence|]. rewrite last_last, app_length. cbn.
  replace (length l + 1 - 1)%nat with (length l) by lia. rewrite nth_error_app2, Nat.sub_diag; auto.
Qed.

Local Arguments cnt : simpl never.

Section Inv.
Context {T : Type} (eqb : T -> T -> bool).
Hypothesis eqb_eq : forall a b, eqb a b = true -> a = b.
Implicit Types (sl : list (wslot T)) (log : list access) (ths : list (wthread T)) (hs : list (whandle T)) (V : view)
  (s : wslot T) (h : whandle T) (th : wthread T) (p : wpc T) (cf : wconf T).

Definition lst s : Z * view := last (wmsgs s) (0, []).
Definition gone h : bool := match whst h with Gone => true | _ => false end.
Definition hw (k : nat) h : bool := Nat.eqb (whid h) k && negb (gone h).
Definition arr (k : nat) th : bool := match wpos th with Some (WSetVal _ k') => Nat.eqb k' k | _ => false end.
Definition bor (n : nat) th : bool :=
  match wpos th with Some (WIncr m _) | Some (WGetRefs m _) | Some (WGetVal m _) => Nat.eqb m n | _ => false end.
Definition lev (n : nat) th : bool := match wpos th with Some (WDecr m _) => Nat.eqb m n | _ => false end.
Definition adds th : bool := in_add (wpos th).

(** What the lock protects: its view contains the accesses made by [add], and of the counts it sees
    no zero but the last one. *)
Definition kn sl log V : Prop :=
  (forall e a, nth_error log e = Some a -> (forall n, aby a <> ByGet n) -> In (Acc e) V) /\
  (forall k s q m, nth_error sl k = Some s -> nth_error (wmsgs s) q = Some m -> (bound V k <= q)%nat ->
     (S q < length (wmsgs s))%nat -> fst m <> 0).

Definition hok sl log h : Prop := exists s, nth_error sl (whid h) = Some s /\
  (gone h = false ->
     wcont s = Some (whval h) /\
     (forall q m, nth_error (wmsgs s) q = Some m -> (bound (whborn h) (whid h) <= q)%nat -> fst m <> 0) /\
     (forall e a, nth_error log e = Some a -> aslot a = whid h -> aby a = BySet -> In (Acc e) (whborn h))).

Definition pcok sl hs V p : Prop :=
  match p with
  | WFindRefs _ _ | WPush _ => True
  | WFindVal v k c => exists s, nth_error sl k = Some s /\ (c = 0 -> cnt (hw k) hs = 0%nat /\ incl (snd (lst s)) V)
  | WIncrLive v k => exists s, nth_error sl k = Some s /\ wcont s = Some v
  | WIncrDead v k | WSetVal v k => exists s, nth_error sl k = Some s /\ cnt (hw k) hs = 0%nat /\ incl (snd (lst s)) V
  | WIncr n k | WGetRefs n k | WGetVal n k => exists h, nth_error hs n = Some h /\ whid h = k /\ incl (whborn h) V
  | WDecr n k => exists h, nth_error hs n = Some h /\ whid h = k
  | WBroken => False
  end.

Definition cget sl log ths hs : Prop :=
  forall e a n, nth_error log e = Some a -> aby a = ByGet n ->
  exists h, nth_error hs n = Some h /\ whid h = aslot a /\
    match whst h with
    | Held _ => In (Acc e) (whused h)
    | Leaving => forall t th, nth_error ths t = Some th -> lev n th = true -> In (Acc e) (wview th)
    | Gone => exists s, nth_error sl (whid h) = Some s /\ In (Acc e) (snd (lst s))
    end.

Definition cuse hs ths : Prop := forall n,
  match option_map (@whst T) (nth_error hs n) with
  | Some (Held b) => cnt (bor n) ths = b /\ cnt (lev n) ths = 0%nat
  | Some Leaving => cnt (bor n) ths = 0%nat /\ cnt (lev n) ths = 1%nat
  | _ => cnt (bor n) ths = 0%nat /\ cnt (lev n) ths = 0%nat
  end.

Definition ccount sl hs ths : Prop := forall k s, nth_error sl k = Some s ->
  wmsgs s <> [] /\ fst (lst s) = Z.of_nat (cnt (hw k) hs + cnt (arr k) ths).

Definition clock sl log ths (lk : view) : Prop :=
  (forall t th, nth_error ths t = Some th -> adds th = true -> kn sl log (wview th)) /\
  (cnt adds ths = 0%nat -> kn sl log lk).

Record winv cf : Prop := {
  wi_count : ccount (wslots cf) (whandles cf) (wthreads cf);
  wi_one : (cnt adds (wthreads cf) <= 1)%nat;
  wi_lock : clock (wslots cf) (wlog cf) (wthreads cf) (wlock cf);
  wi_hand : forall n h, nth_error (whandles cf) n = Some h -> hok (wslots cf) (wlog cf) h;
  wi_get : cget (wslots cf) (wlog cf) (wthreads cf) (whandles cf);
  wi_race : ~ race (wlog cf);
  wi_pc : forall t th p, nth_error (wthreads cf) t = Some th -> wpos th = Some p ->
          pcok (wslots cf) (whandles cf) (wview th) p;
  wi_use : cuse (whandles cf) (wthreads cf);
  wi_reads : forall n o, In (n, o) (wreads cf) -> exists h, nth_error (whandles cf) n = Some h /\ o = Some (whval h) }.

(** ** What the lock protects *)
Lemma kn_mono sl log V V' : incl V V' -> kn sl log V -> kn sl log V'.
Proof.
  intros HI [H1 H2]. split; [eauto|]. intros k s q m E Em Hq. eapply H2; eauto. pose proof (bound_incl V V' k HI). lia.
Qed.
Lemma kn_log_get sl log V k n U : kn sl log V -> kn sl (log ++ [Access k (ByGet n) U]) V.
Proof.
  intros [H1 H2]. split; [|exact H2]. intros e a E Hn. destruct (nth_snoc_cases _ _ _ _ E) as [E'|[_ ->]]; [eauto|].
  destruct (Hn n eq_refl).
Qed.
Lemma kn_log_here sl log V a : kn sl log V -> kn sl (log ++ [a]) (Acc (length log) :: V).
Proof.
  intros HK. destruct (kn_mono _ _ _ (Acc (length log) :: V) (incl_tl _ (incl_refl _)) HK) as [H1 H2]. split; [|exact H2].
  intros e b E Hn. destruct (nth_snoc_cases _ _ _ _ E) as [E'|[-> _]]; [eauto|left; reflexivity].
Qed.
Lemma kn_msg_other sl log V k s c m : nth_error sl k = Some s -> wmsgs s <> [] -> fst (lst s) <> 0 -> kn sl log V ->
  kn (upd sl k (WSlot (wmsgs s ++ [m]) c)) log V.
Proof.
  intros Ek Hm Hc [H1 H2]. split; [exact H1|]. intros k' s' q m' E Em Hq Hl.
  destruct (nth_upd_cases _ _ _ _ _ E) as [[-> ->]|[_ E']]; [|eauto]. cbn in *. rewrite app_length in Hl. cbn in Hl.
  destruct (nth_snoc_cases _ _ _ _ Em) as [Em'|[-> _]]; [|lia].
  destruct (Nat.lt_ge_cases (S q) (length (wmsgs s))) as [L|L]; [eauto|].
  rewrite (nth_last _ _ _ (0, []) Em' L). exact Hc.
Qed.
Lemma kn_msg_own sl log V V' k s c m : nth_error sl k = Some s -> incl V V' -> (length (wmsgs s) <= bound V' k)%nat -> kn sl log V ->
  kn (upd sl k (WSlot (wmsgs s ++ [m]) c)) log V'.
Proof.
  intros Ek HI HB HK. destruct (kn_mono _ _ _ V' HI HK) as [H1 H2]. split; [exact H1|]. intros k' s' q m' E Em Hq Hl.
  destruct (nth_upd_cases _ _ _ _ _ E) as [[-> ->]|[_ E']]; [|eauto]. cbn in *. rewrite app_length in Hl. cbn in Hl. lia.
Qed.
Lemma kn_cont sl log V k s c : nth_error sl k = Some s -> kn sl log V -> kn (upd sl k (WSlot (wmsgs s) c)) log V.
Proof.
  intros Ek [H1 H2]. split; [exact H1|]. intros k' s' q m' E Em Hq Hl.
  destruct (nth_upd_cases _ _ _ _ _ E) as [[-> ->]|[_ E']]; [|eauto]. cbn in *. eauto.
Qed.
Lemma fresh_nth j s : nth_error (@new_slots T) j = Some s -> s = fresh_slot.
Proof. intros E. apply nth_error_In in E. apply repeat_spec in E. exact E. Qed.
Lemma kn_push sl log V : kn sl log V -> kn (sl ++ new_slots) log V.
Proof.
  intros [H1 H2]. split; [exact H1|]. intros k' s' q m' E Em Hq Hl.
  destruct (nth_app_cases _ _ _ _ E) as [E'|[_ E']]; [eauto|]. apply fresh_nth in E'. subst s'. cbn in Hl. lia.
Qed.

(** One thread of the list changes. *)
Lemma clock_other sl log sl' log' ths lk t th th' : nth_error ths t = Some th -> adds th = false -> adds th' = false ->
  (forall V, kn sl log V -> kn sl' log' V) -> clock sl log ths lk -> clock sl' log' (upd ths t th') lk.
Proof.
  intros Et A A' HK [H1 H2]. split.
  - intros u x Eu Ax. destruct (nth_upd_cases _ _ _ _ _ Eu) as [[-> ->]|[_ E']]; [congruence|eauto].
  - intros C. apply HK, H2. pose proof (cnt_upd adds _ _ th' _ Et). rewrite A, A' in *. cbn in *. lia.
Qed.
Lemma clock_hold sl log sl' log' ths lk t th th' : nth_error ths t = Some th -> (cnt adds ths <= 1)%nat ->
  adds th = true -> adds th' = true -> (kn sl log (wview th) -> kn sl' log' (wview th')) ->
  clock sl log ths lk -> clock sl' log' (upd ths t th') lk.
Proof.
  intros Et C1 A A' HK [H1 H2]. split.
  - intros u x Eu Ax. destruct (nth_upd_cases _ _ _ _ _ Eu) as [[-> ->]|[Hne E']]; [eauto|].
    pose proof (cnt_two adds _ _ _ _ _ Hne E' Et Ax A). lia.
  - intros C. pose proof (cnt_pos adds _ _ _ (nth_upd_same _ _ th' _ Et) A'). lia.
Qed.
Lemma clock_done sl log sl' log' ths lk lk' t th th' : nth_error ths t = Some th -> (cnt adds ths <= 1)%nat ->
  adds th = true -> adds th' = false -> (kn sl log (wview th) -> kn sl' log' lk') ->
  clock sl log ths lk -> clock sl' log' (upd ths t th') lk'.
Proof.
  intros Et C1 A A' HK [H1 H2]. split; [|eauto].
  intros u x Eu Ax. destruct (nth_upd_cases _ _ _ _ _ Eu) as [[-> ->]|[Hne E']]; [congruence|].
  pose proof (cnt_two adds _ _ _ _ _ Hne E' Et Ax A). lia.
Qed.
Lemma one_upd ths t th th' : nth_error ths t = Some th -> (b2n (adds th') <= b2n (adds th))%nat ->
  (cnt adds ths <= 1)%nat -> (cnt adds (upd ths t th') <= 1)%nat.
Proof. intros Et A C. pose proof (cnt_upd adds _ _ th' _ Et). lia. Qed.

(** ** Races *)
Lemma race_snoc log k who V :
  (forall i a, nth_error log i = Some a -> aslot a = k -> (aby a = BySet \/ who = BySet) -> In (Acc i) V) ->
  ~ race log -> ~ race (log ++ [Access k who V]).
Proof.
  intros H HR (i & j & a & b & Hij & Ea & Eb & Es & Hw & Hn).
  destruct (nth_snoc_cases _ _ _ _ Eb) as [Eb'|[-> ->]].
  - apply HR. exists i, j, a, b. split; [exact Hij|]. split; [|auto].
    destruct (nth_snoc_cases _ _ _ _ Ea) as [Ea'|[-> _]]; [auto|]. apply nth_lt in Eb'. lia.
  - destruct (nth_snoc_cases _ _ _ _ Ea) as [Ea'|[-> _]]; [|lia]. cbn in *. apply Hn. eapply H; eauto.
Qed.

(** ** Slots and handles *)
Lemma nth_upd_slot sl k s s' k' x : nth_error sl k = Some s -> nth_error sl k' = Some x ->
  exists x', nth_error (upd sl k s') k' = Some x' /\ ((k' = k /\ x' = s') \/ (k' <> k /\ x' = x)).
Proof.
  intros Ek E. destruct (Nat.eq_dec k k') as [<-|Hne].
  - exists s'. split; [eapply nth_upd_same; eauto|auto].
  - exists x. rewrite nth_upd_other by auto. auto.
Qed.

(** A message is appended to the count of slot [k]. *)
Lemma hok_msg sl log h k s m : nth_error sl k = Some s -> (gone h = false -> whid h = k -> fst m <> 0) ->
  hok sl log h -> hok (upd sl k (WSlot (wmsgs s ++ [m]) (wcont s))) log h.
Proof.
  intros Ek Hm (x & E & H). destruct (nth_upd_slot sl k s (WSlot (wmsgs s ++ [m]) (wcont s)) _ _ Ek E) as (x' & E' & Hx).
  exists x'. split; [exact E'|]. intros Hg. destruct (H Hg) as (H1 & H2 & H3). destruct Hx as [[Hk ->]|[_ ->]]; [|auto].
  rewrite Hk in *. rewrite Ek in E. injection E as <-. cbn. split; [exact H1|]. split; [|exact H3].
  intros q m' Em Hq. destruct (nth_snoc_cases _ _ _ _ Em) as [Em'|[_ ->]]; eauto.
Qed.
Lemma hok_log sl log h a : (gone h = false -> aslot a = whid h -> aby a <> BySet) -> hok sl log h -> hok sl (log ++ [a]) h.
Proof.
  intros Ha (x & E & H). exists x. split; [exact E|]. intros Hg. destruct (H Hg) as (H1 & H2 & H3). split; [exact H1|]. split; [exact H2|].
  intros e b Eb Es Hb. destruct (nth_snoc_cases _ _ _ _ Eb) as [E'|[_ ->]]; [eauto|]. destruct (Ha Hg Es Hb).
Qed.
Lemma hok_same sl log h h' : whid h' = whid h -> whval h' = whval h -> whborn h' = whborn h ->
  (gone h = true -> gone h' = true) -> hok sl log h -> hok sl log h'.
Proof.
  intros E1 E2 E3 G (x & E & H). exists x. rewrite E1, E2, E3. split; [exact E|]. intros Hg. apply H.
  destruct (gone h); [rewrite G in Hg by auto; discriminate|reflexivity].
Qed.

Lemma hw_none hs k n h : cnt (hw k) hs = 0%nat -> nth_error hs n = Some h -> whid h = k -> gone h = true.
Proof.
  intros C E Hk. pose proof (cnt_zero_inv _ _ _ _ C E) as H. unfold hw in H. rewrite Hk, Nat.eqb_refl in H.
  destruct (gone h); [reflexivity|discriminate].
Qed.
Lemma hw_some hs k n h : nth_error hs n = Some h -> whid h = k -> gone h = false -> (1 <= cnt (hw k) hs)%nat.
Proof. intros E Hk Hg. eapply cnt_pos; [exact E|]. unfold hw. rewrite Hk, Nat.eqb_refl, Hg. reflexivity. Qed.

Lemma lst_snoc l c m : lst (WSlot (l ++ [m]) c) = m.
Proof. unfold lst. cbn. apply last_last. Qed.

(** ** Positions of the other threads *)
Lemma pcok_incl sl hs V V' p : incl V V' -> pcok sl hs V p -> pcok sl hs V' p.
Proof.
  intros HI. destruct p; cbn; auto.
  - intros (s & E & H). exists s. split; [exact E|]. intros Hc. destruct (H Hc) as [H1 H2]. split; [exact H1|]. eapply incl_tran; eauto.
  - intros (s & E & H1 & H2). exists s. split; [exact E|]. split; [exact H1|]. eapply incl_tran; eauto.
  - intros (s & E & H1 & H2). exists s. split; [exact E|]. split; [exact H1|]. eapply incl_tran; eauto.
  - intros (h & E & H1 & H2). exists h. split; [exact E|]. split; [exact H1|]. eapply incl_tran; eauto.
  - intros (h & E & H1 & H2). exists h. split; [exact E|]. split; [exact H1|]. eapply incl_tran; eauto.
  - intros (h & E & H1 & H2). exists h. split; [exact E|]. split; [exact H1|]. eapply incl_tran; eauto.
Qed.

Definition hkeeps hs hs' : Prop := forall n h, nth_error hs n = Some h ->
  exists h', nth_error hs' n = Some h' /\ whid h' = whid h /\ whborn h' = whborn h /\ whval h' = whval h.
Definition skeeps sl hs sl' hs' : Prop := forall k s, nth_error sl k = Some s ->
  exists s', nth_error sl' k = Some s' /\ wcont s' = wcont s /\
    (cnt (hw k) hs = 0%nat -> wmsgs s' = wmsgs s /\ cnt (hw k) hs' = 0%nat).

Lemma hkeeps_refl hs : hkeeps hs hs.
Proof. intros n h E. eauto. Qed.
Lemma hkeeps_app hs x : hkeeps hs (hs ++ x).
Proof. intros n h E. exists h. split; [apply nth_app_l, E|auto]. Qed.
Lemma hkeeps_trans a b c : hkeeps a b -> hkeeps b c -> hkeeps a c.
Proof.
  intros H1 H2 n h E. destruct (H1 n h E) as (h1 & E1 & ? & ? & ?). destruct (H2 n h1 E1) as (h2 & E2 & ? & ? & ?).
  exists h2. repeat split; congruence.
Qed.
Lemma hkeeps_upd hs n h h' : nth_error hs n = Some h -> whid h' = whid h -> whborn h' = whborn h -> whval h' = whval h ->
  hkeeps hs (upd hs n h').
Proof.
  intros En E1 E2 E3 m x Em. destruct (Nat.eq_dec n m) as [<-|Hne].
  - exists h'. split; [eapply nth_upd_same; eauto|]. rewrite En in Em. injection Em as <-. auto.
  - exists x. rewrite nth_upd_other by auto. auto.
Qed.

Lemma pc_frame sl hs sl' hs' V p : hkeeps hs hs' -> skeeps sl hs sl' hs' -> pcok sl hs V p -> pcok sl' hs' V p.
Proof.
  intros HH HS. destruct p; cbn; auto.
  - intros (s & E & H). destruct (HS _ _ E) as (s' & E' & _ & H'). exists s'. split; [exact E'|]. intros Hc.
    destruct (H Hc) as [H1 H2]. destruct (H' H1) as [Em Hc']. unfold lst. rewrite Em. auto.
  - intros (s & E & H). destruct (HS _ _ E) as (s' & E' & Ec & H'). exists s'. split; [exact E'|]. congruence.
  - intros (s & E & H1 & H2). destruct (HS _ _ E) as (s' & E' & _ & H'). exists s'. split; [exact E'|].
    destruct (H' H1) as [Em Hc']. unfold lst. rewrite Em. auto.
  - intros (s & E & H1 & H2). destruct (HS _ _ E) as (s' & E' & _ & H'). exists s'. split; [exact E'|].
    destruct (H' H1) as [Em Hc']. unfold lst. rewrite Em. auto.
  - intros (h & E & H1 & H2). destruct (HH _ _ E) as (h' & E' & F1 & F2 & F3). exists h'. split; [exact E'|]. rewrite F1, F2. auto.
  - intros (h & E & H1). destruct (HH _ _ E) as (h' & E' & F1 & F2 & F3). exists h'. split; [exact E'|]. rewrite F1. auto.
  - intros (h & E & H1 & H2). destruct (HH _ _ E) as (h' & E' & F1 & F2 & F3). exists h'. split; [exact E'|]. rewrite F1, F2. auto.
  - intros (h & E & H1 & H2). destruct (HH _ _ E) as (h' & E' & F1 & F2 & F3). exists h'. split; [exact E'|]. rewrite F1, F2. auto.
Qed.
Lemma pc_frame_user sl hs sl' hs' V p : hkeeps hs hs' -> in_add (Some p) = false -> pcok sl hs V p -> pcok sl' hs' V p.
Proof.
  intros HH HA. destruct p; cbn; try discriminate; auto.
  - intros (h & E & H1 & H2). destruct (HH _ _ E) as (h' & E' & F1 & F2 & F3). exists h'. split; [exact E'|]. rewrite F1, F2. auto.
  - intros (h & E & H1). destruct (HH _ _ E) as (h' & E' & F1 & F2 & F3). exists h'. split; [exact E'|]. rewrite F1. auto.
  - intros (h & E & H1 & H2). destruct (HH _ _ E) as (h' & E' & F1 & F2 & F3). exists h'. split; [exact E'|]. rewrite F1, F2. auto.
  - intros (h & E & H1 & H2). destruct (HH _ _ E) as (h' & E' & F1 & F2 & F3). exists h'. split; [exact E'|]. rewrite F1, F2. auto.
Qed.

Definition allpc sl hs ths : Prop := forall t th p, nth_error ths t = Some th -> wpos th = Some p -> pcok sl hs (wview th) p.

(** A step of a thread that is not adding. *)
Lemma allpc_other sl hs sl' hs' ths t th' : hkeeps hs hs' -> skeeps sl hs sl' hs' ->
  (forall p, wpos th' = Some p -> pcok sl' hs' (wview th') p) -> allpc sl hs ths -> allpc sl' hs' (upd ths t th').
Proof.
  intros HH HS Hp HA u x p Eu Ex. destruct (nth_upd_cases _ _ _ _ _ Eu) as [[-> ->]|[_ E']]; [auto|].
  eapply pc_frame; eauto.
Qed.
(** A step of the thread that is adding. *)
Lemma allpc_adder sl hs sl' hs' ths t th th' : nth_error ths t = Some th -> (cnt adds ths <= 1)%nat -> adds th = true ->
  hkeeps hs hs' -> (forall p, wpos th' = Some p -> pcok sl' hs' (wview th') p) -> allpc sl hs ths -> allpc sl' hs' (upd ths t th').
Proof.
  intros Et C A HH Hp HA u x p Eu Ex. destruct (nth_upd_cases _ _ _ _ _ Eu) as [[-> ->]|[Hne E']]; [auto|].
  eapply pc_frame_user; eauto. destruct (in_add (Some p)) eqn:F; [|reflexivity].
  assert (adds x = true) as Ax by (unfold adds; rewrite Ex; exact F). pose proof (cnt_two adds _ _ _ _ _ Hne E' Et Ax A). lia.
Qed.

(** ** Uses of handles *)
Lemma cuse_plain hs ths t th th' : nth_error ths t = Some th -> (forall n, bor n th' = bor n th) -> (forall n, lev n th' = lev n th) ->
  cuse hs ths -> cuse hs (upd ths t th').
Proof.
  intros Et B L H n. specialize (H n). pose proof (cnt_upd (bor n) _ _ th' _ Et) as C1. pose proof (cnt_upd (lev n) _ _ th' _ Et) as C2.
  rewrite B in C1. rewrite L in C2. replace (cnt (bor n) (upd ths t th')) with (cnt (bor n) ths) by lia.
  replace (cnt (lev n) (upd ths t th')) with (cnt (lev n) ths) by lia. exact H.
Qed.
Lemma cuse_app hs ths h : whst h = Held 0 -> cuse hs ths -> cuse (hs ++ [h]) ths.
Proof.
  intros Hh H n. specialize (H n). destruct (nth_error hs n) as [x|] eqn:E; [rewrite (nth_app_l _ _ _ _ E); exact H|].
  cbn in H. destruct (nth_error (hs ++ [h]) n) as [x|] eqn:E'; cbn; [|exact H].
  destruct (nth_snoc_cases _ _ _ _ E') as [Ex|[_ ->]]; [congruence|]. rewrite Hh. exact H.
Qed.
Lemma cuse_upd hs ths t th th' n h h' (b b' l l' : bool) : nth_error ths t = Some th -> nth_error hs n = Some h ->
  (forall m, bor m th = b && Nat.eqb n m) -> (forall m, lev m th = l && Nat.eqb n m) ->
  (forall m, bor m th' = b' && Nat.eqb n m) -> (forall m, lev m th' = l' && Nat.eqb n m) ->
  match whst h, whst h' with
  | Held x, Held y => (y + b2n b = x + b2n b')%nat /\ l = l'
  | Held x, Leaving => (b2n b = x + b2n b')%nat /\ l = false /\ l' = true
  | Leaving, Gone => b = b' /\ l = true /\ l' = false
  | _, _ => False
  end -> cuse hs ths -> cuse (upd hs n h') (upd ths t th').
Proof.
  intros Et En B L B' L' HS H m. specialize (H m). pose proof (cnt_upd (bor m) _ _ th' _ Et) as C1. pose proof (cnt_upd (lev m) _ _ th' _ Et) as C2.
  rewrite B, B' in C1. rewrite L, L' in C2. destruct (Nat.eqb_spec n m) as [<-|Hne].
  - rewrite (nth_upd_same _ _ h' _ En). rewrite En in H. cbn in *. rewrite !andb_true_r in *.
    destruct (whst h), (whst h'), b, b', l, l'; cbn in *; try contradiction; lia || (exfalso; intuition discriminate) || idtac.
  - rewrite nth_upd_other by auto. rewrite !andb_false_r in *. cbn in C1, C2.
    replace (cnt (bor m) (upd ths t th')) with (cnt (bor m) ths) by lia.
    replace (cnt (lev m) (upd ths t th')) with (cnt (lev m) ths) by lia. exact H.
Qed.

Lemma in_use hs ths t th n h : cuse hs ths -> nth_error ths t = Some th -> bor n th = true -> nth_error hs n = Some h ->
  exists b, whst h = Held (S b).
Proof.
  intros H Et B En. specialize (H n). rewrite En in H. cbn in H. pose proof (cnt_pos _ _ _ _ Et B).
  destruct (whst h) as [[|b]| |]; try lia. eauto.
Qed.
Lemma in_leave hs ths t th n h : cuse hs ths -> nth_error ths t = Some th -> lev n th = true -> nth_error hs n = Some h ->
  whst h = Leaving.
Proof.
  intros H Et B En. specialize (H n). rewrite En in H. cbn in H. pose proof (cnt_pos _ _ _ _ Et B).
  destruct (whst h); try lia. reflexivity.
Qed.

(** ** Accesses by [get] *)
Definition grown sl sl' : Prop := forall k s, nth_error sl k = Some s ->
  exists s', nth_error sl' k = Some s' /\ incl (snd (lst s)) (snd (lst s')).
Definition same_use h h' : Prop :=
  match whst h, whst h' with
  | Held _, Held _ => incl (whused h) (whused h')
  | Leaving, Leaving | Gone, Gone => True
  | _, _ => False
  end.

Lemma grown_refl sl : grown sl sl.
Proof. intros k s E. exists s. split; [exact E|apply incl_refl]. Qed.
Lemma grown_msg sl k s c V : nth_error sl k = Some s -> incl (snd (lst s)) V -> grown sl (upd sl k (WSlot (wmsgs s ++ [(c, V)]) (wcont s))).
Proof.
  intros Ek HI k' s' E. destruct (nth_upd_slot sl k s (WSlot (wmsgs s ++ [(c, V)]) (wcont s)) _ _ Ek E) as (x & Ex & [[-> ->]|[_ ->]]).
  - exists (WSlot (wmsgs s ++ [(c, V)]) (wcont s)). split; [exact Ex|]. rewrite lst_snoc. cbn. rewrite Ek in E. injection E as <-. exact HI.
  - exists s'. split; [exact Ex|apply incl_refl].
Qed.

Lemma cget_keep sl log ths hs sl' hs' t th th' : nth_error ths t = Some th -> grown sl sl' ->
  (forall n, lev n th' = true -> lev n th = true /\ incl (wview th) (wview th')) ->
  (forall n h, nth_error hs n = Some h -> exists h', nth_error hs' n = Some h' /\ whid h' = whid h /\ same_use h h') ->
  cget sl log ths hs -> cget sl' log (upd ths t th') hs'.
Proof.
  intros Et HG HT HH H e a n Ea Hn. destruct (H e a n Ea Hn) as (h & Eh & Es & Hu).
  destruct (HH n h Eh) as (h' & Eh' & Es' & Hs). exists h'. split; [exact Eh'|]. split; [congruence|].
  unfold same_use in Hs. destruct (whst h), (whst h'); try contradiction; auto.
  - intros u x Eu Lx. destruct (nth_upd_cases _ _ _ _ _ Eu) as [[-> ->]|[_ E']]; [|eauto].
    destruct (HT n Lx) as [L I]. apply I. eauto.
  - destruct Hu as (s & E & I). destruct (HG _ _ E) as (s' & E' & I'). exists s'. rewrite Es'. auto.
Qed.
Lemma cget_log sl log ths hs a : (forall n, aby a <> ByGet n) -> cget sl log ths hs -> cget sl (log ++ [a]) ths hs.
Proof.
  intros Ha H e b n Eb Hn. destruct (nth_snoc_cases _ _ _ _ Eb) as [E'|[_ ->]]; [eauto|]. destruct (Ha n Hn).
Qed.
Lemma same_refl h : same_use h h.
Proof. unfold same_use. destruct (whst h); auto. apply incl_refl. Qed.
Lemma same_use_refl hs n h : nth_error hs n = Some h -> exists h', nth_error hs n = Some h' /\ whid h' = whid h /\ same_use h h'.
Proof. intros E. exists h. split; [exact E|]. split; [reflexivity|apply same_refl]. Qed.
Lemma same_use_app hs x n h : nth_error hs n = Some h -> exists h', nth_error (hs ++ x) n = Some h' /\ whid h' = whid h /\ same_use h h'.
Proof. intros E. exists h. split; [apply nth_app_l, E|]. split; [reflexivity|apply same_refl]. Qed.
Lemma same_use_upd hs m x x' n h : nth_error hs m = Some x -> whid x' = whid x -> same_use x x' -> nth_error hs n = Some h ->
  exists h', nth_error (upd hs m x') n = Some h' /\ whid h' = whid h /\ same_use h h'.
Proof.
  intros Em Ei Hs E. destruct (Nat.eq_dec m n) as [<-|Hne].
  - exists x'. split; [eapply nth_upd_same; eauto|]. rewrite Em in E. injection E as <-. auto.
  - rewrite nth_upd_other by auto. apply same_use_refl, E.
Qed.

(** ** Handles at one slot *)
Lemma all_hok_app sl log hs h : (forall n x, nth_error hs n = Some x -> hok sl log x) -> hok sl log h ->
  forall n x, nth_error (hs ++ [h]) n = Some x -> hok sl log x.
Proof. intros H Hh n x E. destruct (nth_snoc_cases _ _ _ _ E) as [E'|[_ ->]]; eauto. Qed.
Lemma all_hok_upd sl log hs m h : (forall n x, nth_error hs n = Some x -> hok sl log x) -> hok sl log h ->
  forall n x, nth_error (upd hs m h) n = Some x -> hok sl log x.
Proof. intros H Hh n x E. destruct (nth_upd_cases _ _ _ _ _ E) as [[_ ->]|[_ E']]; eauto. Qed.

Lemma reads_keep hs hs' (rd : list (nat * option T)) : hkeeps hs hs' ->
  (forall n o, In (n, o) rd -> exists h, nth_error hs n = Some h /\ o = Some (whval h)) ->
  forall n o, In (n, o) rd -> exists h, nth_error hs' n = Some h /\ o = Some (whval h).
Proof.
  intros HH H n o Hin. destruct (H n o Hin) as (h & E & ->). destruct (HH n h E) as (h' & E' & _ & _ & Ev). exists h'. split; [exact E'|congruence].
Qed.

Lemma skeeps_refl sl hs : skeeps sl hs sl hs.
Proof. intros k s E. exists s. auto. Qed.
Lemma skeeps_hs sl hs hs' : (forall k, cnt (hw k) hs' = cnt (hw k) hs) -> skeeps sl hs sl hs'.
Proof. intros H k s E. exists s. rewrite H. auto. Qed.

(** A message is appended to the count of slot [k], which has a handle that is not given back. *)
Lemma skeeps_msg sl hs hs' k s m : nth_error sl k = Some s -> (1 <= cnt (hw k) hs)%nat ->
  (forall k', k' <> k -> cnt (hw k') hs' = cnt (hw k') hs) ->
  skeeps sl hs (upd sl k (WSlot (wmsgs s ++ [m]) (wcont s))) hs'.
Proof.
  intros Ek Hk Hh k' s' E. destruct (nth_upd_slot sl k s (WSlot (wmsgs s ++ [m]) (wcont s)) _ _ Ek E) as (x & Ex & [[-> ->]|[Hne ->]]).
  - exists (WSlot (wmsgs s ++ [m]) (wcont s)). split; [exact Ex|]. split; [cbn; congruence|]. intros H. lia.
  - exists s'. split; [exact Ex|]. rewrite Hh; auto.
Qed.

Lemma upd_refs s k d V : update_refs s k d V =
  (WSlot (wmsgs s ++ [(fst (lst s) + d, Pos k (length (wmsgs s)) :: snd (lst s) ++ V)]) (wcont s),
   Pos k (length (wmsgs s)) :: snd (lst s) ++ V).
Proof. unfold update_refs, lst. destruct (last (wmsgs s) (0, [])) as [c mv]. reflexivity. Qed.

Lemma bound_here k q V : (q <= bound (Pos k q :: V) k)%nat.
Proof. cbn. rewrite Nat.eqb_refl. lia. Qed.

(** A load of the count of slot [k]. *)
Lemma load_ok s k pick acq V : wmsgs s <> [] -> exists q m, nth_error (wmsgs s) q = Some m /\
  ((bound V k <= q)%nat \/ (length (wmsgs s) <= S q)%nat) /\
  load_refs s k pick acq V = (fst m, Pos k q :: (if acq then snd m else []) ++ V).
Proof.
  intros Hm. unfold load_refs. set (q := if _ && _ then _ else _).
  assert ((q < length (wmsgs s))%nat /\ ((bound V k <= q)%nat \/ (length (wmsgs s) <= S q)%nat)) as [Hq HB].
  { assert (0 < length (wmsgs s))%nat by (destruct (wmsgs s); [congruence|cbn; lia]). unfold q.
    destruct (Nat.leb_spec (bound V k) pick); cbn [andb]; [|lia]. destruct (Nat.ltb_spec pick (length (wmsgs s))); lia. }
  exists q, (nth q (wmsgs s) (0, [])). split; [apply nth_error_nth', Hq|]. split; [exact HB|].
  destruct (nth q (wmsgs s) (0, [])) as [c mv]. reflexivity.
Qed.

Lemma cnt_snoc {B} (f : B -> bool) l x : cnt f (l ++ [x]) = (cnt f l + b2n (f x))%nat.
Proof. rewrite cnt_app. unfold cnt at 2. cbn. destruct (f x); reflexivity. Qed.

(** Only the position and the view of a thread change. *)
Lemma winv_move cf t th th' : winv cf -> nth_error (wthreads cf) t = Some th -> incl (wview th) (wview th') ->
  (forall k, arr k th' = arr k th) -> (forall n, bor n th' = bor n th) -> (forall n, lev n th' = lev n th) ->
  adds th' = adds th -> (forall p, wpos th' = Some p -> pcok (wslots cf) (whandles cf) (wview th') p) ->
  winv (put cf t (wpos th') (wview th')).
Proof.
  intros [] Et HI HA HB HL HD Hp. unfold put. replace (WThread (wpos th') (wview th')) with th' by (destruct th'; reflexivity).
  constructor; cbn; auto.
  - intros k s E. destruct (wi_count0 k s E) as [Hm Hc]. split; [exact Hm|]. pose proof (cnt_upd (arr k) _ _ th' _ Et) as C.
    rewrite HA in C. rewrite Hc. f_equal. lia.
  - eapply one_upd; eauto. rewrite HD. auto.
  - destruct (adds th) eqn:A.
    + eapply clock_hold; eauto; try congruence. apply kn_mono, HI.
    + eapply clock_other; eauto.
  - eapply cget_keep; eauto using grown_refl, same_use_refl.
  - intros u x p Eu Ex. destruct (nth_upd_cases _ _ _ _ _ Eu) as [[-> ->]|[_ E']]; eauto.
  - eapply cuse_plain; eauto.
Qed.

(** A thread begins to use handle [n]. *)
Lemma winv_take cf t V n h b (q : wpc T) : winv cf -> nth_error (wthreads cf) t = Some (WThread None V) ->
  nth_error (whandles cf) n = Some h -> whst h = Held b ->
  (q = WIncr n (whid h) \/ q = WGetRefs n (whid h)) ->
  winv (put (put_handles cf (upd (whandles cf) n (WHandle (whid h) (whval h) (Held (b + 1)) (whborn h) (whused h)))) t (Some q) (whborn h ++ V)).
Proof.
  intros [] Et En Hst Hq. set (h' := WHandle (whid h) (whval h) (Held (b + 1)) (whborn h) (whused h)).
  set (th' := WThread (Some q) (whborn h ++ V)).
  assert (forall k, hw k h' = hw k h) as HW by (intros k; unfold hw, gone, h'; cbn; rewrite Hst; reflexivity).
  assert (forall k, cnt (hw k) (upd (whandles cf) n h') = cnt (hw k) (whandles cf)) as HC.
  { intros k. pose proof (cnt_upd (hw k) _ _ h' _ En) as C. rewrite HW in C. lia. }
  assert (hkeeps (whandles cf) (upd (whandles cf) n h')) as HK by (eapply hkeeps_upd; eauto).
  assert (forall k, arr k th' = false /\ lev k th' = false /\ adds th' = false) as HT by (intros k; destruct Hq as [->| ->]; auto).
  assert (forall m, bor m th' = Nat.eqb n m) as HB by (intros m; destruct Hq as [->| ->]; auto).
  unfold put, put_handles. fold h' th'. constructor; cbn; auto.
  - intros k s E. destruct (wi_count0 k s E) as [Hm Hc]. split; [exact Hm|]. rewrite HC, Hc. f_equal. f_equal.
    pose proof (cnt_upd (arr k) _ _ th' _ Et) as C. rewrite (proj1 (HT k)) in C. cbn in C. lia.
  - eapply one_upd; eauto. rewrite (proj2 (proj2 (HT 0%nat))). cbn. lia.
  - eapply clock_other; eauto. apply (HT 0%nat).
  - apply all_hok_upd; auto. eapply hok_same; [| | | |apply (wi_hand0 _ _ En)]; try reflexivity. unfold gone. rewrite Hst. discriminate.
  - eapply cget_keep; eauto using grown_refl.
    + intros m L. rewrite (proj1 (proj2 (HT m))) in L. discriminate.
    + intros m x. apply same_use_upd with (x := h); auto. unfold same_use. rewrite Hst. cbn. apply incl_refl.
  - eapply allpc_other; eauto using skeeps_hs. intros p Hp. cbn in Hp. injection Hp as <-.
    assert (exists h0, nth_error (upd (whandles cf) n h') n = Some h0 /\ whid h0 = whid h /\ incl (whborn h0) (whborn h ++ V)) as HX.
    { exists h'. split; [eapply nth_upd_same; eauto|]. split; [reflexivity|]. apply incl_appl, incl_refl. }
    destruct Hq as [->| ->]; exact HX.
  - eapply (cuse_upd _ _ _ _ _ _ h h' false true false false); eauto; try reflexivity.
    + intros m. rewrite (proj1 (proj2 (HT m))). reflexivity.
    + rewrite Hst. cbn. split; [lia|reflexivity].
  - eapply reads_keep; eauto.
Qed.

(** A thread begins to give handle [n] back. *)
Lemma winv_leave cf t V n h : winv cf -> nth_error (wthreads cf) t = Some (WThread None V) ->
  nth_error (whandles cf) n = Some h -> whst h = Held 0 ->
  winv (put (put_handles cf (upd (whandles cf) n (WHandle (whid h) (whval h) Leaving (whborn h) (whused h)))) t
         (Some (WDecr n (whid h))) (whborn h ++ whused h ++ V)).
Proof.
  intros [] Et En Hst. set (h' := WHandle (whid h) (whval h) Leaving (whborn h) (whused h)).
  set (th' := WThread (T := T) (Some (WDecr n (whid h))) (whborn h ++ whused h ++ V)).
  assert (forall k, hw k h' = hw k h) as HW by (intros k; unfold hw, gone, h'; cbn; rewrite Hst; reflexivity).
  assert (forall k, cnt (hw k) (upd (whandles cf) n h') = cnt (hw k) (whandles cf)) as HC.
  { intros k. pose proof (cnt_upd (hw k) _ _ h' _ En) as C. rewrite HW in C. lia. }
  assert (hkeeps (whandles cf) (upd (whandles cf) n h')) as HK by (eapply hkeeps_upd; eauto).
  unfold put, put_handles. fold h' th'. constructor; cbn; auto.
  - intros k s E. destruct (wi_count0 k s E) as [Hm Hc]. split; [exact Hm|]. rewrite HC, Hc. f_equal. f_equal.
    pose proof (cnt_upd (arr k) _ _ th' _ Et) as C. cbn in C. lia.
  - eapply one_upd; eauto.
  - eapply clock_other; eauto; reflexivity.
  - apply all_hok_upd; auto. eapply hok_same; [| | | |apply (wi_hand0 _ _ En)]; try reflexivity. unfold gone. rewrite Hst. discriminate.
  - intros e a m Ea Hm. destruct (wi_get0 e a m Ea Hm) as (x & Ex & Es & Hu). destruct (Nat.eq_dec n m) as [<-|Hne].
    + exists h'. split; [eapply nth_upd_same; eauto|]. rewrite En in Ex. injection Ex as <-. split; [exact Es|]. cbn.
      rewrite Hst in Hu. intros u y Eu Ly. destruct (nth_upd_cases _ _ _ _ _ Eu) as [[-> ->]|[_ E']].
      * cbn. apply in_or_app. right. apply in_or_app. left. exact Hu.
      * pose proof (wi_use0 n) as U. rewrite En in U. cbn in U. rewrite Hst in U.
        pose proof (cnt_pos _ _ _ _ E' Ly). lia.
    + exists x. rewrite nth_upd_other by auto. split; [exact Ex|]. split; [exact Es|]. destruct (whst x); auto.
      intros u y Eu Ly. destruct (nth_upd_cases _ _ _ _ _ Eu) as [[-> ->]|[_ E']]; [|eauto].
      cbn in Ly. apply Nat.eqb_eq in Ly. congruence.
  - eapply allpc_other; eauto using skeeps_hs. intros p Hp. cbn in Hp. injection Hp as <-. exists h'. split; [eapply nth_upd_same; eauto|reflexivity].
  - eapply (cuse_upd _ _ _ _ _ _ h h' false false false true); eauto; try reflexivity.
    rewrite Hst. cbn. auto.
  - eapply reads_keep; eauto.
Qed.

Lemma winv_begin cf t V c : winv cf -> nth_error (wthreads cf) t = Some (WThread None V) -> winv (wbegin true cf t V c).
Proof.
  intros HI Et. unfold wbegin. destruct c as [v|n|n|n].
  - destruct (existsb _ _) eqn:X; [exact HI|].
    assert (cnt adds (wthreads cf) = 0%nat) as C0.
    { apply cnt_zero. intros y Hy. destruct (adds y) eqn:A; [|reflexivity].
      assert (existsb (fun th => in_add (wpos th)) (wthreads cf) = true) by (apply existsb_exists; eauto). congruence. }
    destruct HI. set (th' := WThread (Some (WFindRefs v 0)) (wlock cf ++ V)). unfold put. fold th'.
    pose proof (cnt_upd adds _ _ th' _ Et) as CA.
    change (b2n (adds th')) with 1%nat in CA. change (b2n (adds (WThread (T := T) None V))) with 0%nat in CA. constructor; cbn; auto.
    + intros k s E. destruct (wi_count0 k s E) as [Hm Hc]. split; [exact Hm|]. rewrite Hc. f_equal. f_equal.
      pose proof (cnt_upd (arr k) _ _ th' _ Et) as C. cbn in C. lia.
    + lia. 
    + destruct wi_lock0 as [L1 L2]. split; [|intros; lia]. intros u x Eu Ax. destruct (nth_upd_cases _ _ _ _ _ Eu) as [[-> ->]|[_ E']]; [|eauto].
      eapply kn_mono; [|apply L2, C0]. cbn. apply incl_appl, incl_refl.
    + eapply cget_keep; eauto using grown_refl, same_use_refl. intros n L. discriminate L.
    + intros u x p Eu Ex. destruct (nth_upd_cases _ _ _ _ _ Eu) as [[-> ->]|[_ E']]; [|eauto]. cbn in Ex. injection Ex as <-. exact I.
    + eapply cuse_plain; eauto.
  - destruct (nth_error (whandles cf) n) as [[k x [b| |] bn us]|] eqn:En; auto.
    apply (winv_take cf t V n (WHandle k x (Held b) bn us) b); auto.
  - destruct (nth_error (whandles cf) n) as [[k x [[|b]| |] bn us]|] eqn:En; auto.
    apply (winv_leave cf t V n (WHandle k x (Held 0) bn us)); auto.
  - destruct (nth_error (whandles cf) n) as [[k x [b| |] bn us]|] eqn:En; auto.
    apply (winv_take cf t V n (WHandle k x (Held b) bn us) b); auto.
Qed.

(** ** Steps of [add] *)
Lemma winv_findrefs cf t V v k pick : winv cf -> nth_error (wthreads cf) t = Some (WThread (Some (WFindRefs v k)) V) ->
  winv (wstep eqb true cf t pick (WFindRefs v k) V).
Proof.
  intros HI Et. unfold wstep. destruct (nth_error (wslots cf) k) as [s|] eqn:Ek.
  - destruct (wi_count _ HI k s Ek) as [Hm Hc]. destruct (load_ok s k pick true V Hm) as (q & m & Em & Hq & ->).
    set (V' := Pos k q :: snd m ++ V). apply (winv_move cf t _ (WThread (Some (WFindVal v k (fst m))) V') HI Et); try reflexivity.
    + cbn. apply incl_tl, incl_appr, incl_refl.
    + intros p [= <-]. cbn. exists s. split; [exact Ek|]. intros H0.
      destruct (proj1 (wi_lock _ HI) _ _ Et eq_refl) as [_ K2]. cbn in K2.
      assert (m = lst s) as ->.
      { destruct (Nat.lt_ge_cases (S q) (length (wmsgs s))) as [L|L]; [|apply (nth_last _ _ _ (0, []) Em L)].
        destruct Hq as [Hq|Hq]; [|lia]. destruct (K2 k s q m Ek Em Hq L H0). }
      split; [rewrite H0 in Hc; lia|]. apply incl_tl, incl_appl, incl_refl.
  - apply (winv_move cf t _ (WThread (Some (WPush v)) V) HI Et); try reflexivity; [apply incl_refl|]. intros p [= <-]. exact I.
Qed.

Lemma winv_findval cf t V v k c pick : winv cf -> nth_error (wthreads cf) t = Some (WThread (Some (WFindVal v k c)) V) ->
  winv (wstep eqb true cf t pick (WFindVal v k c) V).
Proof.
  intros HI Et. unfold wstep. destruct (wi_pc _ HI _ _ _ Et eq_refl) as (s & Ek & Hc). cbn in Hc. rewrite Ek.
  set (q := if match wcont s with Some cur => eqb v cur | None => false end then WIncrLive v k
            else if c =? 0 then WIncrDead v k else WFindRefs v (S k)).
  set (th' := WThread (Some q) (Acc (length (wlog cf)) :: V)).
  assert (adds th' = true /\ (forall k', arr k' th' = false) /\ (forall n, bor n th' = false) /\ (forall n, lev n th' = false)) as (A & A1 & A2 & A3).
  { unfold th', q. destruct (match wcont s with Some cur => eqb v cur | None => false end), (c =? 0); repeat split. }
  destruct HI. unfold put, put_log. fold th'. destruct (proj1 wi_lock0 _ _ Et eq_refl) as [K1 K2]. cbn in K1, K2.
  constructor; cbn; auto.
  - intros k' s' E. destruct (wi_count0 k' s' E) as [Hm Hc']. split; [exact Hm|]. rewrite Hc'. f_equal. f_equal.
    pose proof (cnt_upd (arr k') _ _ th' _ Et) as C. rewrite A1 in C. cbn in C. lia.
  - eapply one_upd; eauto. rewrite A. reflexivity.
  - eapply clock_hold; eauto. intros HK. apply kn_log_here, HK.
  - intros n h En. apply hok_log; [discriminate|eauto].
  - apply cget_log; [discriminate|]. eapply cget_keep; eauto using grown_refl, same_use_refl. intros n L. rewrite A3 in L. discriminate.
  - apply race_snoc; auto. intros i a Ea Es [Hw|Hw]; [|discriminate]. eapply K1; eauto. congruence.
  - intros u x p Eu Ex. destruct (nth_upd_cases _ _ _ _ _ Eu) as [[-> ->]|[_ E']]; [|eauto]. cbn in Ex. injection Ex as <-. unfold q.
    destruct (wcont s) as [cur|] eqn:Ec.
    + destruct (eqb v cur) eqn:Eq.
      * exists s. split; [exact Ek|]. rewrite Ec. f_equal. symmetry. auto.
      * destruct (Z.eqb_spec c 0) as [C0|]; [|exact I]. exists s. destruct (Hc C0) as [H1 H2]. split; [exact Ek|]. split; [exact H1|]. apply incl_tl, H2.
    + destruct (Z.eqb_spec c 0) as [C0|]; [|exact I]. exists s. destruct (Hc C0) as [H1 H2]. split; [exact Ek|]. split; [exact H1|]. apply incl_tl, H2.
  - eapply cuse_plain; eauto.
Qed.

Lemma winv_incrlive cf t V v k pick : winv cf -> nth_error (wthreads cf) t = Some (WThread (Some (WIncrLive v k)) V) ->
  winv (wstep eqb true cf t pick (WIncrLive v k) V).
Proof.
  intros HI Et. unfold wstep. destruct (wi_pc _ HI _ _ _ Et eq_refl) as (s & Ek & Hv). cbn in Hv. rewrite Ek, upd_refs.
  set (V' := Pos k (length (wmsgs s)) :: snd (lst s) ++ V). set (m := (fst (lst s) + 1, V')).
  set (sl' := upd (wslots cf) k (WSlot (wmsgs s ++ [m]) (wcont s))). set (h := WHandle k v (Held 0) V' []). set (th' := WThread (T := T) None V').
  destruct HI. destruct (proj1 wi_lock0 _ _ Et eq_refl) as [K1 K2]. cbn in K1, K2. destruct (wi_count0 k s Ek) as [Hm Hc].
  assert (fst m <> 0) as Hm0 by (cbn; lia). assert (incl V V') as HV by apply incl_tl, incl_appr, incl_refl.
  assert (incl (snd (lst s)) V') as HV2 by apply incl_tl, incl_appl, incl_refl.
  unfold wadded, put, put_handles, put_lock, put_slot. cbn [wslots wlog wthreads whandles wreads wlock]. fold sl' h th'.
  constructor; cbn; auto.
  - intros k' s' E. rewrite cnt_snoc. pose proof (cnt_upd (arr k') _ _ th' _ Et) as C. cbn in C. unfold hw at 2. cbn.
    destruct (nth_upd_cases _ _ _ _ _ E) as [[-> ->]|[Hne E']].
    + split; [cbn; destruct (wmsgs s); discriminate|]. rewrite lst_snoc. cbn. rewrite Nat.eqb_refl. cbn. lia.
    + destruct (wi_count0 k' s' E') as [Hm' Hc']. split; [exact Hm'|]. rewrite (proj2 (Nat.eqb_neq k k')) by auto. cbn. lia.
  - eapply one_upd; eauto. cbn. lia.
  - eapply clock_done; eauto; try reflexivity. intros HK. apply (kn_msg_own _ _ V V'); auto. apply bound_here.
  - apply all_hok_app.
    + intros n x En. apply hok_msg; eauto.
    + exists (WSlot (wmsgs s ++ [m]) (wcont s)). split; [eapply nth_upd_same; eauto|]. intros _. cbn [whval whborn whid wcont wmsgs h].
      split; [exact Hv|]. split.
      * intros q m' Em Hq. destruct (nth_snoc_cases _ _ _ _ Em) as [Em'|[_ ->]]; [|exact Hm0]. apply nth_lt in Em'.
        pose proof (bound_here k (length (wmsgs s)) (snd (lst s) ++ V)). fold V' in H. lia.
      * intros e a Ea _ Hs. apply HV. eapply K1; eauto. congruence.
  - eapply cget_keep; eauto.
    + apply grown_msg; auto.
    + intros. apply same_use_app. auto.
  - eapply allpc_adder; eauto; [apply hkeeps_app|discriminate].
  - apply cuse_app; [reflexivity|]. eapply cuse_plain; eauto.
  - eapply reads_keep; eauto. apply hkeeps_app.
Qed.

Lemma winv_incrdead cf t V v k pick : winv cf -> nth_error (wthreads cf) t = Some (WThread (Some (WIncrDead v k)) V) ->
  winv (wstep eqb true cf t pick (WIncrDead v k) V).
Proof.
  intros HI Et. unfold wstep. destruct (wi_pc _ HI _ _ _ Et eq_refl) as (s & Ek & H0 & Hv). cbn in Hv. rewrite Ek, upd_refs.
  set (V' := Pos k (length (wmsgs s)) :: snd (lst s) ++ V). set (m := (fst (lst s) + 1, V')).
  set (sl' := upd (wslots cf) k (WSlot (wmsgs s ++ [m]) (wcont s))). set (th' := WThread (Some (WSetVal v k)) V').
  destruct HI. destruct (wi_count0 k s Ek) as [Hm Hc].
  assert (fst m <> 0) as Hm0 by (cbn; lia). assert (incl V V') as HV by apply incl_tl, incl_appr, incl_refl.
  assert (incl (snd (lst s)) V') as HV2 by apply incl_tl, incl_appl, incl_refl.
  unfold put, put_slot. cbn [wslots wlog wthreads whandles wreads wlock]. fold sl' th'.
  constructor; cbn; auto.
  - intros k' s' E. pose proof (cnt_upd (arr k') _ _ th' _ Et) as C. cbn in C.
    destruct (nth_upd_cases _ _ _ _ _ E) as [[-> ->]|[Hne E']].
    + split; [cbn; destruct (wmsgs s); discriminate|]. rewrite lst_snoc. cbn. rewrite Nat.eqb_refl in C. cbn in C. lia.
    + destruct (wi_count0 k' s' E') as [Hm' Hc']. split; [exact Hm'|]. rewrite (proj2 (Nat.eqb_neq k k')) in C by auto. cbn in C. lia.
  - eapply one_upd; eauto.
  - eapply clock_hold; eauto; try reflexivity. intros HK. apply (kn_msg_own _ _ V V'); auto. apply bound_here.
  - intros n x En. apply hok_msg; eauto.
  - eapply cget_keep; eauto using same_use_refl.
    + apply grown_msg; auto.
  - eapply allpc_adder; eauto; [apply hkeeps_refl|]. intros p [= <-]. exists (WSlot (wmsgs s ++ [m]) (wcont s)).
    split; [eapply nth_upd_same; eauto|]. split; [exact H0|]. rewrite lst_snoc. apply incl_refl.
  - eapply cuse_plain; eauto.
Qed.

Lemma winv_setval cf t V v k pick : winv cf -> nth_error (wthreads cf) t = Some (WThread (Some (WSetVal v k)) V) ->
  winv (wstep eqb true cf t pick (WSetVal v k) V).
Proof.
  intros HI Et. unfold wstep. destruct (wi_pc _ HI _ _ _ Et eq_refl) as (s & Ek & H0 & Hv). cbn in Hv. rewrite Ek.
  set (V' := Acc (length (wlog cf)) :: V). set (s1 := WSlot (wmsgs s) (Some v)).
  set (sl' := upd (wslots cf) k s1). set (h := WHandle k v (Held 0) V' []). set (th' := WThread (T := T) None V').
  destruct HI. destruct (proj1 wi_lock0 _ _ Et eq_refl) as [K1 K2]. cbn in K1, K2. destruct (wi_count0 k s Ek) as [Hm Hc].
  assert (incl V V') as HV by apply incl_tl, incl_refl.
  assert (forall n x, nth_error (whandles cf) n = Some x -> gone x = false -> whid x <> k) as HN.
  { intros n x En Hg Hk. pose proof (hw_none _ _ _ _ H0 En Hk). congruence. }
  unfold wadded, put, put_handles, put_lock, put_slot, put_log. cbn [wslots wlog wthreads whandles wreads wlock]. fold s1 sl' h th'.
  constructor; cbn; auto.
  - intros k' s' E. rewrite cnt_snoc. pose proof (cnt_upd (arr k') _ _ th' _ Et) as C. cbn in C. unfold hw at 2. cbn.
    destruct (nth_upd_cases _ _ _ _ _ E) as [[-> ->]|[Hne E']].
    + split; [exact Hm|]. change (lst s1) with (lst s). rewrite Nat.eqb_refl in *. cbn in *. lia.
    + destruct (wi_count0 k' s' E') as [Hm' Hc']. split; [exact Hm'|]. rewrite (proj2 (Nat.eqb_neq k k')) in * by auto. cbn in *. lia.
  - eapply one_upd; eauto. cbn. lia.
  - eapply clock_done; eauto; try reflexivity. intros HK. apply kn_cont; auto. apply kn_log_here, HK.
  - apply all_hok_app.
    + intros n x En. destruct (wi_hand0 n x En) as (y & Ey & Hy).
      destruct (nth_upd_slot _ _ _ s1 _ _ Ek Ey) as (y' & Ey' & Hy'). exists y'. split; [exact Ey'|]. intros Hg.
      destruct Hy' as [[Hk _]|[_ ->]]; [destruct (HN n x En Hg Hk)|]. destruct (Hy Hg) as (Y1 & Y2 & Y3). split; [exact Y1|]. split; [exact Y2|].
      intros e a Ea Es Hs. destruct (nth_snoc_cases _ _ _ _ Ea) as [Ea'|[_ ->]]; [eauto|]. destruct (HN n x En Hg). symmetry. exact Es.
    + exists s1. split; [eapply nth_upd_same; eauto|]. intros _. cbn [whval whborn whid wcont wmsgs h s1].
      split; [reflexivity|]. split.
      * intros q m' Em Hq. destruct (Nat.lt_ge_cases (S q) (length (wmsgs s))) as [L|L].
        -- eapply K2; eauto.
        -- rewrite (nth_last _ _ _ (0, []) Em L). change (fst (lst s) <> 0). rewrite Hc.
           assert (1 <= cnt (arr k) (wthreads cf))%nat by (eapply cnt_pos; [exact Et|]; cbn; apply Nat.eqb_refl). lia.
      * intros e a Ea _ Hs. destruct (nth_snoc_cases _ _ _ _ Ea) as [Ea'|[-> _]]; [|left; reflexivity]. apply HV. eapply K1; eauto. congruence.
  - apply cget_log; [discriminate|]. eapply cget_keep; eauto.
    + intros k' x Ex. destruct (nth_upd_slot _ _ _ s1 _ _ Ek Ex) as (y' & Ey' & Hy'). exists y'. split; [exact Ey'|].
      destruct Hy' as [[-> ->]|[_ ->]]; [|apply incl_refl]. rewrite Ek in Ex. injection Ex as <-. apply incl_refl.
    + intros. apply same_use_app. auto.
  - apply race_snoc; auto. intros i a Ea Es _. destruct (aby a) as [| |n] eqn:Ha; try (eapply K1; eauto; congruence).
    destruct (wi_get0 i a n Ea Ha) as (x & Ex & Exs & Hu). assert (whid x = k) as Hk by congruence.
    pose proof (hw_none _ _ _ _ H0 Ex Hk) as Hg. unfold gone in Hg. destruct (whst x); try discriminate.
    destruct Hu as (s' & Es' & Hin). rewrite Hk, Ek in Es'. injection Es' as <-. auto.
  - eapply allpc_adder; eauto; [apply hkeeps_app|discriminate].
  - apply cuse_app; [reflexivity|]. eapply cuse_plain; eauto.
  - eapply reads_keep; eauto. apply hkeeps_app.
Qed.

Lemma winv_push cf t V v pick : winv cf -> nth_error (wthreads cf) t = Some (WThread (Some (WPush v)) V) ->
  winv (wstep eqb true cf t pick (WPush v) V).
Proof.
  intros HI Et. unfold wstep. set (th' := WThread (Some (WIncrDead v (length (wslots cf)))) V).
  destruct HI. unfold put. cbn [wslots wlog wthreads whandles wreads wlock]. fold th'.
  assert (forall k s, (length (wslots cf) <= k)%nat -> nth_error (wslots cf) k = Some s -> False) as HL by (intros k s L E; apply nth_lt in E; lia).
  assert (forall k, (length (wslots cf) <= k)%nat -> cnt (hw k) (whandles cf) = 0%nat) as HH.
  { intros k L. apply cnt_zero. intros h Hin. apply In_nth_error in Hin. destruct Hin as [n En]. unfold hw.
    destruct (Nat.eqb_spec (whid h) k) as [<-|]; [|reflexivity]. destruct (wi_hand0 n h En) as (s & Es & _). destruct (HL _ _ L Es). }
  assert (forall k, (length (wslots cf) <= k)%nat -> cnt (arr k) (wthreads cf) = 0%nat) as HA.
  { intros k L. apply cnt_zero. intros x Hin. apply In_nth_error in Hin. destruct Hin as [u Eu]. unfold arr.
    destruct (wpos x) as [[]|] eqn:Ex; auto. destruct (Nat.eqb_spec k0 k) as [->|]; [|reflexivity].
    destruct (wi_pc0 _ _ _ Eu Ex) as (s & Es & _). destruct (HL _ _ L Es). }
  constructor; cbn [wslots wlog wthreads whandles wreads wlock]; auto.
  - intros k s E. pose proof (cnt_upd (arr k) _ _ th' _ Et) as C. cbn in C. destruct (nth_app_cases _ _ _ _ E) as [E'|[L E']].
    + destruct (wi_count0 k s E') as [Hm Hc]. split; [exact Hm|]. rewrite Hc. lia.
    + apply fresh_nth in E'. subst s. split; [discriminate|]. rewrite (HH _ L). rewrite (HA _ L) in C. cbn. lia.
  - eapply one_upd; eauto.
  - eapply (clock_hold (wslots cf) (wlog cf)); eauto. apply kn_push.
  - intros n h En. destruct (wi_hand0 n h En) as (s & Es & H). exists s. split; [apply nth_app_l, Es|exact H].
  - eapply cget_keep; eauto using same_use_refl.
    + intros k s E. exists s. split; [apply nth_app_l, E|apply incl_refl].
    + intros n L. discriminate L.
  - eapply allpc_adder; eauto; [apply hkeeps_refl|]. intros p [= <-]. exists fresh_slot. split; [|split].
    + rewrite nth_error_app2, Nat.sub_diag; auto.
    + apply HH. auto.
    + intros x [].
  - eapply cuse_plain; eauto.
Qed.

(** ** Steps of the calls with a handle *)
Lemma unuse_eq hs n h b V : nth_error hs n = Some h -> whst h = Held (S b) ->
  unuse hs n V = upd hs n (WHandle (whid h) (whval h) (Held b) (whborn h) (V ++ whused h)).
Proof. intros En Hst. unfold unuse. rewrite En. destruct h as [k v st born used]. cbn in *. rewrite Hst. cbn. rewrite Nat.sub_0_r. reflexivity. Qed.

Lemma hw_same hs n h h' : nth_error hs n = Some h -> whid h' = whid h -> gone h' = gone h ->
  forall k, cnt (hw k) (upd hs n h') = cnt (hw k) hs.
Proof.
  intros En E1 E2 k. pose proof (cnt_upd (hw k) _ _ h' _ En) as C. unfold hw in C at 2 4. rewrite E1, E2 in C. lia.
Qed.

Lemma winv_incr cf t V n k pick : winv cf -> nth_error (wthreads cf) t = Some (WThread (Some (WIncr n k)) V) ->
  winv (wstep eqb true cf t pick (WIncr n k) V).
Proof.
  intros HI Et. unfold wstep. destruct (wi_pc _ HI _ _ _ Et eq_refl) as (h & En & Hk & Hb). cbn in Hb. subst k.
  destruct (in_use _ _ _ _ _ _ (wi_use _ HI) Et (Nat.eqb_refl n) En) as [b Hst].
  destruct (wi_hand _ HI _ _ En) as (s & Ek & Hh). assert (gone h = false) as Hg by (unfold gone; rewrite Hst; reflexivity).
  destruct (Hh Hg) as (H1 & H2 & H3). rewrite Ek, upd_refs, En, (unuse_eq _ _ _ _ _ En Hst). set (k := whid h) in *.
  set (V' := Pos k (length (wmsgs s)) :: snd (lst s) ++ V). set (m := (fst (lst s) + 1, V')).
  set (sl' := upd (wslots cf) k (WSlot (wmsgs s ++ [m]) (wcont s))). set (hn := WHandle k (whval h) (Held 0) V' []).
  set (h' := WHandle k (whval h) (Held b) (whborn h) (V' ++ whused h)). set (th' := WThread (T := T) None V').
  destruct HI. destruct (wi_count0 k s Ek) as [Hm Hc].
  pose proof (hw_some _ _ _ _ En eq_refl Hg) as Hw. fold k in Hw.
  assert (fst m <> 0) as Hm0 by (cbn; lia). assert (incl V V') as HV by apply incl_tl, incl_appr, incl_refl.
  assert (incl (snd (lst s)) V') as HV2 by apply incl_tl, incl_appl, incl_refl.
  assert (forall k, cnt (hw k) (upd (whandles cf) n h') = cnt (hw k) (whandles cf)) as HC by (eapply hw_same; eauto).
  assert (hkeeps (whandles cf) (upd (whandles cf) n h' ++ [hn])) as HK by (apply (hkeeps_trans _ (upd (whandles cf) n h')); [eapply hkeeps_upd; eauto|apply hkeeps_app]).
  unfold put, put_handles, put_slot. cbn [wslots wlog wthreads whandles wreads wlock]. fold sl' th'.
  constructor; cbn [wslots wlog wthreads whandles wreads wlock]; auto.
  - intros k' s' E. rewrite cnt_snoc, HC. pose proof (cnt_upd (arr k') _ _ th' _ Et) as C. cbn in C. unfold hw at 2. cbn.
    destruct (nth_upd_cases _ _ _ _ _ E) as [[-> ->]|[Hne E']].
    + split; [cbn; destruct (wmsgs s); discriminate|]. rewrite lst_snoc. cbn. rewrite Nat.eqb_refl. cbn. lia.
    + destruct (wi_count0 k' s' E') as [Hm' Hc']. split; [exact Hm'|]. rewrite (proj2 (Nat.eqb_neq k k')) by auto. cbn. lia.
  - eapply one_upd; eauto.
  - eapply (clock_other (wslots cf) (wlog cf)); eauto. intros U. apply kn_msg_other; auto. lia.
  - apply all_hok_app.
    + apply all_hok_upd.
      * intros i x Ei. apply hok_msg; eauto.
      * apply hok_msg; auto. eapply hok_same; [| | | |apply (wi_hand0 _ _ En)]; try reflexivity. congruence.
    + exists (WSlot (wmsgs s ++ [m]) (wcont s)). split; [eapply nth_upd_same; eauto|]. intros _. cbn [whval whborn whid wcont wmsgs hn].
      split; [exact H1|]. split.
      * intros q m' Em Hq. destruct (nth_snoc_cases _ _ _ _ Em) as [Em'|[_ ->]]; [|exact Hm0]. apply nth_lt in Em'.
        pose proof (bound_here k (length (wmsgs s)) (snd (lst s) ++ V)). fold V' in H. lia.
      * intros e a Ea Es Hs. apply HV, Hb. eauto.
  - eapply cget_keep; eauto.
    + apply grown_msg; auto.
    + intros j x Ej. assert (same_use h h') as HU by (unfold same_use; rewrite Hst; cbn; apply incl_tl, incl_appr, incl_refl).
      destruct (same_use_upd _ _ _ h' _ _ En eq_refl HU Ej) as (y & Ey & Hy1 & Hy2).
      exists y. split; [apply nth_app_l, Ey|auto].
  - eapply allpc_other; eauto; [|discriminate]. apply skeeps_msg; auto. intros k' Hne. rewrite cnt_snoc, HC. unfold hw at 2. cbn.
    rewrite (proj2 (Nat.eqb_neq k k')) by auto. cbn. lia.
  - apply cuse_app; [reflexivity|]. eapply (cuse_upd _ _ _ _ _ _ h h' true false false false); eauto; try reflexivity.
    rewrite Hst. cbn. split; [lia|reflexivity].
  - eapply reads_keep; eauto.
Qed.

Lemma winv_decr cf t V n k pick : winv cf -> nth_error (wthreads cf) t = Some (WThread (Some (WDecr n k)) V) ->
  winv (wstep eqb true cf t pick (WDecr n k) V).
Proof.
  intros HI Et. unfold wstep. destruct (wi_pc _ HI _ _ _ Et eq_refl) as (h & En & Hk). subst k.
  pose proof (in_leave _ _ _ _ _ _ (wi_use _ HI) Et (Nat.eqb_refl n) En) as Hst.
  destruct (wi_hand _ HI _ _ En) as (s & Ek & Hh). assert (gone h = false) as Hg by (unfold gone; rewrite Hst; reflexivity).
  rewrite Ek, En, upd_refs. set (k := whid h) in *.
  destruct (wi_count _ HI k s Ek) as [Hm Hc]. pose proof (hw_some _ _ _ _ En eq_refl Hg) as Hw. fold k in Hw.
  change (last (wmsgs s) (0, [])) with (lst s). rewrite (proj2 (Z.eqb_neq (fst (lst s)) 0)) by lia.
  set (V' := Pos k (length (wmsgs s)) :: snd (lst s) ++ V). set (m := (fst (lst s) + -1, V')).
  set (sl' := upd (wslots cf) k (WSlot (wmsgs s ++ [m]) (wcont s))).
  set (h' := WHandle k (whval h) Gone (whborn h) (whused h)). set (th' := WThread (T := T) None V').
  destruct HI. assert (incl V V') as HV by apply incl_tl, incl_appr, incl_refl.
  assert (incl (snd (lst s)) V') as HV2 by apply incl_tl, incl_appl, incl_refl.
  assert (forall k', cnt (hw k') (upd (whandles cf) n h') + b2n (Nat.eqb k k') = cnt (hw k') (whandles cf))%nat as HC.
  { intros k'. pose proof (cnt_upd (hw k') _ _ h' _ En) as C. unfold hw in C at 2 4. rewrite Hg in C. cbn in C. fold k in C.
    rewrite andb_true_r, andb_false_r in C. cbn in C. lia. }
  assert (hkeeps (whandles cf) (upd (whandles cf) n h')) as HK by (eapply hkeeps_upd; eauto).
  unfold put, put_handles, put_slot. cbn [wslots wlog wthreads whandles wreads wlock]. fold sl' th'.
  constructor; cbn [wslots wlog wthreads whandles wreads wlock]; auto.
  - intros k' s' E. specialize (HC k'). pose proof (cnt_upd (arr k') _ _ th' _ Et) as C. cbn in C.
    destruct (nth_upd_cases _ _ _ _ _ E) as [[-> ->]|[Hne E']].
    + split; [cbn; destruct (wmsgs s); discriminate|]. rewrite lst_snoc. cbn. rewrite Nat.eqb_refl in HC. cbn in HC. lia.
    + destruct (wi_count0 k' s' E') as [Hm' Hc']. split; [exact Hm'|]. rewrite (proj2 (Nat.eqb_neq k k')) in HC by auto. cbn in HC. lia.
  - eapply one_upd; eauto.
  - eapply (clock_other (wslots cf) (wlog cf)); eauto. intros U. apply kn_msg_other; auto. lia.
  - intros i x Ei. destruct (nth_upd_cases _ _ _ _ _ Ei) as [[-> ->]|[Hne Ei']].
    + exists (WSlot (wmsgs s ++ [m]) (wcont s)). split; [eapply nth_upd_same; eauto|discriminate].
    + apply hok_msg; eauto. intros Hx Hkx. pose proof (hw_some _ _ _ _ Ei Hkx Hx) as C. specialize (HC k). rewrite Nat.eqb_refl in HC. cbn in *. lia.
  - intros e a j Ea Hj. destruct (wi_get0 e a j Ea Hj) as (x & Ex & Es & Hu). destruct (Nat.eq_dec n j) as [<-|Hne].
    + exists h'. split; [eapply nth_upd_same; eauto|]. rewrite En in Ex. injection Ex as <-. split; [exact Es|]. cbn.
      rewrite Hst in Hu. exists (WSlot (wmsgs s ++ [m]) (wcont s)). split; [eapply nth_upd_same; eauto|]. rewrite lst_snoc. cbn [snd m].
      apply HV. apply (Hu t _ Et). cbn. apply Nat.eqb_refl.
    + exists x. rewrite nth_upd_other by auto. split; [exact Ex|]. split; [exact Es|]. destruct (whst x); auto.
      * intros u y Eu Ly. destruct (nth_upd_cases _ _ _ _ _ Eu) as [[-> ->]|[_ E']]; [discriminate|eauto].
      * destruct Hu as (s0 & E0 & I0). destruct (grown_msg _ _ _ (fst (lst s) + -1) V' Ek HV2 _ _ E0) as (s1 & E1 & I1). exists s1. auto.
  - eapply allpc_other; eauto; [|discriminate]. apply skeeps_msg; auto. intros k' Hne. specialize (HC k').
    rewrite (proj2 (Nat.eqb_neq k k')) in HC by auto. cbn in HC. lia.
  - eapply (cuse_upd _ _ _ _ _ _ h h' false false true false); eauto; try reflexivity. rewrite Hst. cbn. auto.
  - eapply reads_keep; eauto.
Qed.

Lemma winv_getrefs cf t V n k pick : winv cf -> nth_error (wthreads cf) t = Some (WThread (Some (WGetRefs n k)) V) ->
  winv (wstep eqb true cf t pick (WGetRefs n k) V).
Proof.
  intros HI Et. unfold wstep. destruct (wi_pc _ HI _ _ _ Et eq_refl) as (h & En & Hk & Hb). cbn in Hb. subst k.
  destruct (in_use _ _ _ _ _ _ (wi_use _ HI) Et (Nat.eqb_refl n) En) as [b Hst].
  destruct (wi_hand _ HI _ _ En) as (s & Ek & Hh). assert (gone h = false) as Hg by (unfold gone; rewrite Hst; reflexivity).
  destruct (Hh Hg) as (H1 & H2 & H3). rewrite Ek. destruct (wi_count _ HI _ s Ek) as [Hm Hc].
  pose proof (hw_some _ _ _ _ En eq_refl Hg) as Hw.
  destruct (load_ok s (whid h) pick false V Hm) as (q & m & Em & Hq & ->).
  assert (fst m <> 0) as Hm0.
  { destruct (Nat.lt_ge_cases (S q) (length (wmsgs s))) as [L|L].
    - apply (H2 q m Em). pose proof (bound_incl _ _ (whid h) Hb). lia.
    - rewrite (nth_last _ _ _ (0, []) Em L). change (fst (lst s) <> 0). lia. }
  rewrite (proj2 (Z.eqb_neq (fst m) 0) Hm0).
  apply (winv_move cf t _ (WThread (Some (WGetVal n (whid h))) (Pos (whid h) q :: [] ++ V)) HI Et); try reflexivity.
  - cbn. apply incl_tl, incl_refl.
  - intros p [= <-]. exists h. split; [exact En|]. split; [reflexivity|]. cbn. apply incl_tl, Hb.
Qed.

Lemma winv_getval cf t V n k pick : winv cf -> nth_error (wthreads cf) t = Some (WThread (Some (WGetVal n k)) V) ->
  winv (wstep eqb true cf t pick (WGetVal n k) V).
Proof.
  intros HI Et. unfold wstep. destruct (wi_pc _ HI _ _ _ Et eq_refl) as (h & En & Hk & Hb). cbn in Hb. subst k.
  destruct (in_use _ _ _ _ _ _ (wi_use _ HI) Et (Nat.eqb_refl n) En) as [b Hst].
  destruct (wi_hand _ HI _ _ En) as (s & Ek & Hh). assert (gone h = false) as Hg by (unfold gone; rewrite Hst; reflexivity).
  destruct (Hh Hg) as (H1 & H2 & H3). rewrite Ek, H1, (unuse_eq _ _ _ _ _ En Hst). set (k := whid h) in *.
  set (V' := Acc (length (wlog cf)) :: V). set (h' := WHandle k (whval h) (Held b) (whborn h) (V' ++ whused h)).
  set (th' := WThread (T := T) None V'). destruct HI.
  assert (forall k, cnt (hw k) (upd (whandles cf) n h') = cnt (hw k) (whandles cf)) as HC by (eapply hw_same; eauto).
  assert (hkeeps (whandles cf) (upd (whandles cf) n h')) as HK by (eapply hkeeps_upd; eauto).
  unfold put, put_handles, put_read, put_log. cbn [wslots wlog wthreads whandles wreads wlock]. fold th'.
  constructor; cbn [wslots wlog wthreads whandles wreads wlock]; auto.
  - intros k' s' E. destruct (wi_count0 k' s' E) as [Hm Hc]. split; [exact Hm|]. rewrite HC, Hc. f_equal. f_equal.
    pose proof (cnt_upd (arr k') _ _ th' _ Et) as C. cbn in C. lia.
  - eapply one_upd; eauto.
  - eapply (clock_other (wslots cf) (wlog cf)); eauto. intros U. apply kn_log_get.
  - apply all_hok_upd.
    + intros i x Ei. apply hok_log; [discriminate|eauto].
    + apply hok_log; [discriminate|]. eapply hok_same; [| | | |apply (wi_hand0 _ _ En)]; try reflexivity. congruence.
  - assert (cget (wslots cf) (wlog cf) (upd (wthreads cf) t th') (upd (whandles cf) n h')) as HG.
    { eapply (cget_keep _ _ _ (whandles cf)); eauto using grown_refl; [discriminate|]. intros j x Ej. apply (same_use_upd _ _ _ h' _ _ En eq_refl); auto.
      unfold same_use. rewrite Hst. cbn. apply incl_tl, incl_appr, incl_refl. }
    intros e a j Ea Hj. destruct (nth_snoc_cases _ _ _ _ Ea) as [Ea'|[-> ->]]; [eauto|]. cbn in Hj. injection Hj as <-.
    exists h'. split; [eapply nth_upd_same; eauto|]. split; [reflexivity|]. cbn. left. reflexivity.
  - apply race_snoc; auto. intros i a Ea Es [Hs|Hs]; [|discriminate]. apply Hb. eauto.
  - eapply allpc_other; eauto using skeeps_hs. discriminate.
  - eapply (cuse_upd _ _ _ _ _ _ h h' true false false false); eauto; try reflexivity.
    rewrite Hst. cbn. split; [lia|reflexivity].
  - intros j o Hin. apply in_app_or in Hin. destruct Hin as [Hin|[[= <- <-]|[]]].
    + eapply reads_keep; eauto.
    + exists h'. split; [eapply nth_upd_same; eauto|reflexivity].
Qed.

(** ** Executions *)
Lemma winv_step cf a : winv cf -> winv (wconf_step eqb true cf a).
Proof.
  intros HI. destruct a as [t c|t pick|t u]; cbn [wconf_step].
  - destruct (nth_error (wthreads cf) t) as [[[p|] V]|] eqn:Et; auto. apply winv_begin; auto.
  - destruct (nth_error (wthreads cf) t) as [[[p|] V]|] eqn:Et; auto. destruct p.
    + apply winv_findrefs; auto.
    + apply winv_findval; auto.
    + apply winv_incrlive; auto.
    + apply winv_incrdead; auto.
    + apply winv_setval; auto.
    + apply winv_push; auto.
    + apply winv_incr; auto.
    + apply winv_decr; auto.
    + apply winv_getrefs; auto.
    + apply winv_getval; auto.
    + exact HI.
  - destruct (nth_error (wthreads cf) t) as [[[p|] V]|] eqn:Et; auto.
    destruct (nth_error (wthreads cf) u) as [[[p|] U]|] eqn:Eu; auto.
    apply (winv_move cf t _ (WThread None (U ++ V)) HI Et); try reflexivity; [apply incl_appr, incl_refl|discriminate].
Qed.

Lemma concat_fresh j k s : nth_error (concat (repeat (@new_slots T) j)) k = Some s -> s = fresh_slot.
Proof.
  intros E. apply nth_error_In, in_concat in E. destruct E as (l & Hl & Hs). apply repeat_spec in Hl. subst l. apply repeat_spec in Hs. exact Hs.
Qed.

Lemma winv_initial n capacity : winv (winitial n capacity).
Proof.
  unfold winitial. set (c := ((capacity + 32 - 1) / 32)%nat). set (V0 := map Chunk (seq 0 c)).
  assert (forall f : wthread T -> bool, f (WThread None V0) = false -> cnt f (repeat (WThread None V0) n) = 0%nat) as HZ.
  { intros f Hf. apply cnt_zero. intros x Hx. apply repeat_spec in Hx. subst x. exact Hf. }
  constructor; cbn [wslots wlog wthreads whandles wreads wlock].
  - intros k s E. apply concat_fresh in E. subst s. split; [discriminate|]. rewrite HZ by reflexivity. reflexivity.
  - rewrite HZ by reflexivity. lia.
  - split.
    + intros t th E A. apply nth_error_In, repeat_spec in E. subst th. discriminate.
    + intros _. split; [intros e a E; destruct e; discriminate|]. intros k s q m E Em _ L. apply concat_fresh in E. subst s. cbn in L. lia.
  - intros i h E. destruct i; discriminate.
  - intros e a i E. destruct e; discriminate.
  - intros (i & j & a & b & _ & E & _). destruct i; discriminate.
  - intros t th p E Ep. apply nth_error_In, repeat_spec in E. subst th. discriminate.
  - intros i. destruct i; cbn; rewrite !HZ by reflexivity; auto.
  - intros i o [].
Qed.

Lemma winv_exec acts cf : winv cf -> winv (wexec eqb true acts cf).
Proof. revert cf. induction acts as [|a acts IH]; intros cf HI; [exact HI|]. cbn. apply IH, winv_step, HI. Qed.
End Inv.
