(** Lemmas about static iterators. *)
From Coq Require Import List Bool Arith Lia.
From Verif Require Import Base StaticIterModel StaticIterSpec.
Import ListNotations.

(** Induction over stacks. *)
Section Ind.
Variable P : forall A, adapter A -> Prop.
Hypothesis HI : forall T cells log, P T (AInto cells log).
Hypothesis HR : forall T inner log, P T (ARef inner log).
Hypothesis HG : forall log, P nat (ARange log).
Hypothesis HM : forall A B C (f : C -> A -> out (C * B)) c a, P A a -> P B (AMap f c a).
Hypothesis HZ : forall A B a b, P A a -> P B b -> P (A * B)%type (AZip a b).
Hypothesis HE : forall A a, P A a -> P (nat * A)%type (AEnum a).
Hypothesis HA : forall A arrs, Forall (P A) arrs -> P (list A) (AZipAll arrs).
Fixpoint adapter_ind2 A (a : adapter A) : P A a :=
  match a with
  | AInto cells log => HI _ cells log
  | ARef inner log => HR _ inner log
  | ARange log => HG log
  | AMap f c a => HM _ _ _ f c a (adapter_ind2 _ a)
  | AZip a b => HZ _ _ a b (adapter_ind2 _ a) (adapter_ind2 _ b)
  | AEnum a => HE _ a (adapter_ind2 _ a)
  | AZipAll arrs => HA _ arrs ((fix go l := match l return Forall (P _) l with
      | [] => Forall_nil _
      | a :: l' => Forall_cons _ (adapter_ind2 _ a) (go l') end) arrs)
  end.
End Ind.

(** The inner loop of [ArrayZipIter::idx]. *)
Fixpoint idx_all {A} (l : list (adapter A)) (i : nat) : out (list (adapter A) * list A) :=
  match l with
  | [] => Ret ([], [])
  | a :: l' => obind (idx a i) (fun '(a', x) => obind (idx_all l' i) (fun '(l'', xs) => Ret (a' :: l'', x :: xs)))
  end.

Lemma idx_zipall A (arrs : list (adapter A)) i :
  idx (AZipAll arrs) i = obind (idx_all arrs i) (fun '(arrs', xs) => Ret (AZipAll arrs', xs)).
Proof.
  cbn [idx].
  set (go := fix go l := match l with [] => _ | _ => _ end).
  assert (E : forall l, go l = idx_all l i).
  { induction l as [|a l IH]; [reflexivity|]. cbn [idx_all]. rewrite <- IH. reflexivity. }
  rewrite E. reflexivity.
Qed.

Lemma upd_length {A} (l : list A) : forall i v, length (upd l i v) = length l.
Proof. induction l as [|x l IH]; intros [|i] v; cbn; auto. Qed.

Lemma upd_skipn {A} (l : list A) : forall i k v, i < k -> skipn k (upd l i v) = skipn k l.
Proof.
  induction l as [|x l IH]; intros i k v H; cbn; auto.
  destruct k as [|k]; [lia|]. destruct i as [|i]; cbn; auto. apply IH. lia.
Qed.

Lemma skipn_cons {A} : forall (l : list A) k x r, skipn k l = x :: r -> nth_error l k = Some x /\ skipn (S k) l = r.
Proof.
  induction l as [|y l IH]; intros [|k] x r H; cbn in *; try discriminate; auto.
  inversion H; auto.
Qed.

(** ** Safety and order *)

(** After [k] accesses in order. *)
Fixpoint ready (n k : nat) {A} (a : adapter A) : Prop :=
  match a with
  | AInto cells log => exists l, length cells = n /\ skipn k cells = map Some l /\ log = seq 0 k
  | ARef inner log => length inner = n /\ log = seq 0 k
  | ARange log => log = seq 0 k
  | AMap func _ inner => (forall c x, func c x <> UB) /\ ready n k inner
  | AEnum inner => ready n k inner
  | AZip l r => ready n k l /\ ready n k r
  | AZipAll arrs => (fix all l := match l with [] => True | a :: l' => ready n k a /\ all l' end) arrs
  end.

Lemma ready_all n k A (arrs : list (adapter A)) : ready n k (AZipAll arrs) <-> Forall (fun a => ready n k a) arrs.
Proof.
  induction arrs as [|a l IH]; cbn.
  - split; auto.
  - cbn in IH. rewrite Forall_cons_iff, IH. tauto.
Qed.

Lemma fresh_ready n A (a : adapter A) : fresh n a -> ready n 0 a.
Proof.
  revert A a. apply (adapter_ind2 (fun A a => fresh n a -> ready n 0 a)); intros.
  - cbn in *. destruct H as (l & L & -> & ->). exists l. rewrite map_length. auto.
  - cbn in *. tauto.
  - cbn in *. auto.
  - cbn in *. tauto.
  - cbn in *. tauto.
  - cbn in *. tauto.
  - apply ready_all. revert H0. induction H as [|a l Ha _ IH]; cbn; intros H; constructor.
    + apply Ha. tauto.
    + apply IH. tauto.
Qed.

Definition stepped n k {A} (a : adapter A) : Prop :=
  idx a k = Pan \/ exists a' x, idx a k = Ret (a', x) /\ ready n (S k) a'.

Lemma seq_snoc k : seq 0 k ++ [k] = seq 0 (S k).
Proof. rewrite seq_S. auto. Qed.

Lemma ready_step n k A (a : adapter A) : ready n k a -> k < n -> stepped n k a.
Proof.
  intros H Hk. revert A a H.
  apply (adapter_ind2 (fun A a => ready n k a -> stepped n k a)); intros.
  - cbn in H. destruct H as (l & L & E & ->). unfold stepped. cbn [idx].
    destruct l as [|x l]; cbn in E.
    { exfalso. assert (length (skipn k cells) = 0) as F by (rewrite E; auto). rewrite skipn_length in F. lia. }
    apply skipn_cons in E. destruct E as [E1 E2]. rewrite E1. right.
    eexists _, _. split; [reflexivity|]. cbn [ready]. exists l. rewrite upd_length, seq_snoc.
    split; auto. split; auto. rewrite upd_skipn by lia. auto.
  - cbn in H. destruct H as [L ->]. unfold stepped. cbn [idx].
    destruct (nth_error inner k) eqn:E; auto. right. eexists _, _. split; [reflexivity|].
    cbn [ready]. rewrite <- (seq_snoc k). auto.
  - cbn in H. subst. right. eexists _, _. split; [reflexivity|]. cbn [ready]. apply seq_snoc.
  - cbn in H0. destruct H0 as [Hf Hr]. destruct (H Hr) as [E|(a' & x & E & R)]; unfold stepped; cbn [idx]; rewrite E; cbn [obind]; auto.
    destruct (f c x) as [[c' y]| |] eqn:Ef; cbn [obind]; auto.
    + right. eexists _, _. split; [reflexivity|]. cbn [ready]. auto.
    + exfalso. apply (Hf c x Ef).
  - cbn in H1. destruct H1 as [Ra Rb]. unfold stepped. cbn [idx].
    destruct (H Ra) as [E|(a' & x & E & R)]; rewrite E; cbn [obind]; auto.
    destruct (H0 Rb) as [E'|(b' & y & E' & R')]; rewrite E'; cbn [obind]; auto.
    right. eexists _, _. split; [reflexivity|]. cbn [ready]. auto.
  - cbn in H0. unfold stepped. cbn [idx]. destruct (H H0) as [E|(a' & x & E & R)]; rewrite E; cbn [obind]; auto.
    right. eexists _, _. split; [reflexivity|]. auto.
  - apply ready_all in H0. unfold stepped. rewrite idx_zipall.
    assert (idx_all arrs k = Pan \/ exists l' xs, idx_all arrs k = Ret (l', xs) /\ Forall (fun a => ready n (S k) a) l') as D.
    { induction arrs as [|a l IH]; cbn [idx_all].
      - right. exists [], []. auto.
      - apply Forall_cons_iff in H, H0. destruct H as [Ha Hl], H0 as [Ra Rl].
        destruct (Ha Ra) as [E|(a' & x & E & R)]; rewrite E; cbn [obind]; auto.
        destruct (IH Hl Rl) as [E'|(l' & xs & E' & R')]; rewrite E'; cbn [obind]; auto.
        right. eexists _, _. split; [reflexivity|]. constructor; auto. }
    destruct D as [E|(l' & xs & E & R)]; rewrite E; cbn [obind]; auto.
    right. eexists _, _. split; [reflexivity|]. apply ready_all. auto.
Qed.

Lemma ready_logs n k A (a : adapter A) : ready n k a -> Forall (fun log => log = seq 0 k) (logs a).
Proof.
  revert A a. apply (adapter_ind2 (fun A a => ready n k a -> Forall (fun log => log = seq 0 k) (logs a))); intros.
  - cbn in *. destruct H as (l & _ & _ & ->). repeat constructor.
  - cbn in *. destruct H as (_ & ->). repeat constructor.
  - cbn in *. subst. repeat constructor.
  - cbn in *. apply H. tauto.
  - cbn in *. apply Forall_app. tauto.
  - cbn in *. auto.
  - apply ready_all in H0. cbn [logs]. induction arrs as [|a l IH]; cbn [flat_map]; auto.
    apply Forall_cons_iff in H, H0. apply Forall_app. split; [apply H; apply H0|apply IH; tauto].
Qed.

Lemma fold_safe {A S} (f : S -> A -> out S) n : (forall s x, f s x <> UB) ->
  forall m k a s, ready n k a -> k + m = n ->
  fold_from f a k m s = Pan \/ exists a' s', fold_from f a k m s = Ret (a', s') /\ ready n n a'.
Proof.
  intros Hf. induction m as [|m IH]; intros k a s R E; cbn [fold_from].
  - right. exists a, s. split; auto. assert (k = n) as -> by lia. auto.
  - destruct (ready_step n k A a R) as [E1|(a' & x & E1 & R')]; [lia| |]; rewrite E1; cbn [obind]; auto.
    destruct (f s x) as [s'| |] eqn:Ef; cbn [obind]; auto; [|exfalso; apply (Hf s x Ef)].
    apply IH; auto; lia.
Qed.

Lemma try_safe {A S B} (f : S -> nat -> A -> out (S + B)) n (I : S -> nat -> Prop) (J : B -> nat -> Prop) :
  (forall s k x, I s k -> k < n -> f s k x <> UB) ->
  (forall s k x s', I s k -> f s k x = Ret (inl s') -> I s' (Datatypes.S k)) ->
  (forall s k x b, I s k -> f s k x = Ret (inr b) -> J b k) ->
  forall m k a s, ready n k a -> I s k -> k + m = n ->
  try_from f a k m s = Pan \/
  (exists a' s', try_from f a k m s = Ret (a', inl s') /\ ready n n a' /\ I s' n) \/
  (exists a' b j, try_from f a k m s = Ret (a', inr b) /\ k <= j < n /\ ready n (Datatypes.S j) a' /\ J b j).
Proof.
  intros Hf HI HJ. induction m as [|m IH]; intros k a s R Hs E; cbn [try_from].
  - right. left. exists a, s. assert (k = n) as -> by lia. auto.
  - destruct (ready_step n k A a R) as [E1|(a' & x & E1 & R')]; [lia| |]; rewrite E1; cbn [obind]; auto.
    destruct (f s k x) as [[s'|b]| |] eqn:Ef; cbn [obind]; auto.
    + destruct (IH (Datatypes.S k) a' s' R') as [?|[?|(a2 & b2 & j & Q1 & Q2 & Q3)]]; auto.
      * apply (HI s k x); auto.
      * lia.
      * right. right. exists a2, b2, j. repeat split; auto; try lia; apply Q3.
    + right. right. exists a', b, k. repeat split; auto; try lia. apply (HJ s k x); auto.
    + exfalso. apply (Hf s k x); auto. lia.
Qed.

(** ** Yielded elements *)

Lemma items_all n k A (arrs : list (adapter A)) rows :
  items n k (AZipAll arrs) rows <->
  exists cols, Forall2 (fun a c => items n k a c) arrs cols /\ is_transpose (n - k) cols rows.
Proof.
  cbn [items]. split; intros (cols & H & T); exists cols; (split; [|exact T]); clear T.
  - revert cols H. induction arrs as [|a l IH]; intros [|c cols] H; try contradiction; constructor; [apply H|].
    apply IH. apply H.
  - induction H; auto.
Qed.

Definition yields n k {A} (a : adapter A) : Prop := forall l, items n k a l ->
  length l = n - k /\
  forall x l', l = x :: l' -> exists a', idx a k = Ret (a', x) /\ items n (S k) a' l'.

Lemma threads_length {A B C} (f : C -> A -> out (C * B)) c l l' : threads f c l l' -> length l' = length l.
Proof. induction 1; cbn; auto. Qed.

Lemma items_yields n k A (a : adapter A) : yields n k a.
Proof.
  revert A a. apply (adapter_ind2 (fun A a => yields n k a)); intros; unfold yields.
  - intros l (L & E). split.
    + rewrite <- L, <- skipn_length, E, map_length. auto.
    + intros x l' ->. cbn in E. apply skipn_cons in E. destruct E as [E1 E2]. cbn [idx]. rewrite E1.
      eexists. split; [reflexivity|]. cbn [items]. rewrite upd_length, upd_skipn by lia. auto.
  - intros l (L & E). split.
    + rewrite <- L, <- skipn_length, E. auto.
    + intros x l' ->. apply skipn_cons in E. destruct E as [E1 E2]. cbn [idx]. rewrite E1.
      eexists. split; [reflexivity|]. cbn [items]. auto.
  - cbn [items]. intros l ->. split; [apply seq_length|]. intros x l' E.
    destruct (n - k) as [|m] eqn:Em; [discriminate|]. cbn in E. inversion E; subst.
    eexists. split; [reflexivity|]. cbn [items]. f_equal. lia.
  - cbn [items]. intros l' (l & Hl & Ht). destruct (H l Hl) as [L Y]. split.
    + rewrite (threads_length _ _ _ _ Ht). auto.
    + intros y l2 ->. inversion Ht as [|c0 x c' y0 l0 l0' Ef Ht']; subst.
      destruct (Y x l0 eq_refl) as (a' & E & I). cbn [idx]. rewrite E. cbn [obind]. rewrite Ef. cbn [obind].
      eexists. split; [reflexivity|]. cbn [items]. eauto.
  - cbn [items]. intros l (l1 & l2 & H1 & H2 & ->). destruct (H l1 H1) as [L1 Y1], (H0 l2 H2) as [L2 Y2]. split.
    + rewrite combine_length. lia.
    + intros p l' E. destruct l1 as [|x l1], l2 as [|y l2]; try discriminate. cbn in E. inversion E; subst.
      destruct (Y1 _ _ eq_refl) as (a' & Ea & Ia), (Y2 _ _ eq_refl) as (b' & Eb & Ib).
      cbn [idx]. rewrite Ea. cbn [obind]. rewrite Eb. cbn [obind].
      eexists. split; [reflexivity|]. cbn [items]. eauto.
  - cbn [items]. intros l (l1 & H1 & ->). destruct (H l1 H1) as [L1 Y1]. split.
    + rewrite combine_length, seq_length. lia.
    + intros p l' E. destruct l1 as [|x l1]; [destruct (n - k); discriminate|].
      destruct (n - k) as [|m] eqn:Em; [discriminate|]. cbn in E. inversion E; subst.
      destruct (Y1 _ _ eq_refl) as (a' & Ea & Ia). cbn [idx]. rewrite Ea. cbn [obind].
      eexists. split; [reflexivity|]. cbn [items]. exists l1. split; auto.
      replace (n - S k) with m by lia. auto.
  - intros rows Hr. apply items_all in Hr. destruct Hr as (cols & HF & HL & HT). split; [auto|].
    intros row rows' ->. rewrite idx_zipall.
    assert (exists arrs', idx_all arrs k = Ret (arrs', row) /\
      Forall2 (fun a c => items n (S k) a c) arrs' (map (@tl _) cols)) as (arrs' & E & F).
    { specialize (HT 0 row eq_refl). clear HL. revert row HT.
      induction HF as [|a c arrs cols Hac HF IH]; intros row HT.
      - inversion HT; subst. exists []. cbn. auto.
      - inversion HT as [|c0 x cols0 xs Hx Hxs]; subst. apply Forall_cons_iff in H. destruct H as [Ha Hl].
        destruct c as [|x0 c]; [discriminate|]. cbn in Hx. inversion Hx; subst x0.
        destruct (Ha _ Hac) as [_ Y]. destruct (Y _ _ eq_refl) as (a' & E & I).
        destruct (IH Hl xs Hxs) as (arrs' & E' & F'). cbn [idx_all]. rewrite E. cbn [obind]. rewrite E'. cbn [obind].
        eexists. split; [reflexivity|]. cbn [map tl]. constructor; auto. }
    rewrite E. cbn [obind]. eexists. split; [reflexivity|]. apply items_all.
    exists (map (@tl _) cols). split; auto. cbn in HL. split; [lia|].
    intros i r Hi. specialize (HT (S i) r Hi). clear - HT. induction HT; cbn; constructor; auto.
    destruct x; cbn in *; auto. destruct i; discriminate.
Qed.

Lemma items_length n k A (a : adapter A) l : items n k a l -> length l = n - k.
Proof. intros H. apply (items_yields n k A a l H). Qed.

Lemma items_step n k A (a : adapter A) x l : items n k a (x :: l) ->
  exists a', idx a k = Ret (a', x) /\ items n (S k) a' l.
Proof. intros H. apply (items_yields n k A a _ H). auto. Qed.

Fixpoint ofold {A S} (f : S -> A -> out S) (l : list A) (s : S) : out S :=
  match l with [] => Ret s | x :: l' => obind (f s x) (ofold f l') end.

Lemma fold_items {A S} (f : S -> A -> out S) n : forall l k a s, items n k a l -> k + length l = n ->
  (exists a' s', fold_from f a k (length l) s = Ret (a', s') /\ ofold f l s = Ret s') \/
  (fold_from f a k (length l) s = Pan /\ ofold f l s = Pan) \/
  (fold_from f a k (length l) s = UB /\ ofold f l s = UB).
Proof.
  induction l as [|x l IH]; intros k a s H E; cbn [fold_from ofold length].
  - left. eauto.
  - destruct (items_step n k A a x l H) as (a' & E1 & I). rewrite E1. cbn [obind].
    destruct (f s x) as [s'| |]; cbn [obind]; auto. apply IH; auto. cbn in E. lia.
Qed.

(** Breaking folds over the yielded list. *)
Fixpoint otry {A S B} (f : S -> nat -> A -> out (S + B)) (l : list A) (k : nat) (s : S) : out (S + B) :=
  match l with
  | [] => Ret (inl s)
  | x :: l' => obind (f s k x) (fun r => match r with inl s' => otry f l' (Datatypes.S k) s' | inr b => Ret (inr b) end)
  end.

Lemma try_items {A S B} (f : S -> nat -> A -> out (S + B)) n : forall l k a s, items n k a l -> k + length l = n ->
  (exists a' s', try_from f a k (length l) s = Ret (a', s') /\ otry f l k s = Ret s') \/
  (try_from f a k (length l) s = Pan /\ otry f l k s = Pan) \/
  (try_from f a k (length l) s = UB /\ otry f l k s = UB).
Proof.
  induction l as [|x l IH]; intros k a s H E; cbn [try_from otry length].
  - left. eauto.
  - destruct (items_step n k A a x l H) as (a' & E1 & I). rewrite E1. cbn [obind].
    destruct (f s k x) as [[s'|b]| |]; cbn [obind]; auto.
    + apply IH; auto. cbn in E. lia.
    + left. eauto.
Qed.

Lemma both_step n k A (a : adapter A) x l : ready n k a -> items n k a (x :: l) ->
  exists a', idx a k = Ret (a', x) /\ ready n (S k) a' /\ items n (S k) a' l.
Proof.
  intros R H. pose proof (items_length _ _ _ _ _ H) as L. cbn in L.
  destruct (items_step _ _ _ _ _ _ H) as (a' & E & I). exists a'. split; auto. split; auto.
  destruct (ready_step n k A a R) as [E'|(a2 & x2 & E' & R')]; [lia| |]; rewrite E in E'; [discriminate|].
  injection E' as <- _. auto.
Qed.

Lemma any_run {A} (p : A -> bool) n : forall l k a, ready n k a -> items n k a l -> k + length l = n ->
  exists a', try_from (fun c _ x => obind (pure p c x) (fun '(c', b) => Ret (if b : bool then inr tt else inl c'))) a k (length l) tt
    = Ret (a', if existsb p l then inr tt else inl tt) /\ ready n (k + looked_at p l) a'.
Proof.
  induction l as [|x l IH]; intros k a R H E; cbn [try_from existsb looked_at length].
  - exists a. rewrite Nat.add_0_r. auto.
  - destruct (both_step _ _ _ _ _ _ R H) as (a' & E1 & R' & H'). rewrite E1. cbn [obind pure].
    destruct (p x); cbn [orb].
    + exists a'. split; auto. rewrite Nat.add_1_r. auto.
    + destruct (IH (S k) a' R' H') as (a2 & E2 & R2); [cbn in E; lia|]. exists a2. split; auto.
      replace (k + S (looked_at p l)) with (S k + looked_at p l) by lia. auto.
Qed.

Lemma all_run {A} (p : A -> bool) n : forall l k a, ready n k a -> items n k a l -> k + length l = n ->
  exists a', try_from (fun c _ x => obind (pure p c x) (fun '(c', b) => Ret (if b : bool then inl c' else inr tt))) a k (length l) tt
    = Ret (a', if forallb p l then inl tt else inr tt) /\ ready n (k + looked_at (fun x => negb (p x)) l) a'.
Proof.
  induction l as [|x l IH]; intros k a R H E; cbn [try_from forallb looked_at length].
  - exists a. rewrite Nat.add_0_r. auto.
  - destruct (both_step _ _ _ _ _ _ R H) as (a' & E1 & R' & H'). rewrite E1. cbn [obind pure].
    destruct (p x); cbn [andb negb].
    + destruct (IH (S k) a' R' H') as (a2 & E2 & R2); [cbn in E; lia|]. exists a2. split; auto.
      match goal with |- ready _ (k + S ?z) _ => replace (k + S z) with (S k + z) by lia end. auto.
    + exists a'. split; auto. rewrite Nat.add_1_r. auto.
Qed.

Lemma ofold_pure {A S} (f : S -> A -> S) l : forall s, ofold (fun s x => Ret (f s x)) l s = Ret (fold_left f l s).
Proof. induction l as [|x l IH]; intros s; cbn; auto. Qed.

Lemma ofold_snoc {A} (l : list A) : forall s, ofold (fun s x => Ret (s ++ [x])) l s = Ret (s ++ l).
Proof.
  induction l as [|x l IH]; intros s; cbn [ofold obind].
  - rewrite app_nil_r. auto.
  - rewrite IH, <- app_assoc. auto.
Qed.

Lemma fold_whole {A S} (f : S -> A -> out S) n a l s r : items n 0 a l -> ofold f l s = Ret r ->
  exists a', fold_from f a 0 n s = Ret (a', r).
Proof.
  intros H E. pose proof (items_length _ _ _ _ _ H) as L. rewrite Nat.sub_0_r in L.
  destruct (fold_items f n l 0 a s H) as [(a' & s' & E1 & E2)|[[_ E2]|[_ E2]]]; [lia| | |];
    rewrite E2 in E; try discriminate. injection E as <-. rewrite L in E1. eauto.
Qed.

Lemma collect_map_out {A B C} (f : C -> A -> out (C * B)) c n (a : adapter A) l l' :
  items n 0 a l -> threads f c l l' -> exists a', collect_array n (AMap f c a) = Ret (a', l').
Proof.
  intros H T. apply (fold_whole _ _ _ l').
  - cbn. eauto.
  - apply (ofold_snoc l' []).
Qed.

(** A panic of the closure is a panic of the whole. *)
Inductive breaks {A B C} (f : C -> A -> out (C * B)) : C -> list A -> Prop :=
| breaks_here c x l : f c x = Pan -> breaks f c (x :: l)
| breaks_later c x c' y l : f c x = Ret (c', y) -> breaks f c' l -> breaks f c (x :: l).

Lemma collect_map_pan {A B C} (f : C -> A -> out (C * B)) n : forall l k c (a : adapter A) acc,
  items n k a l -> breaks f c l -> fold_from (fun s x => Ret (s ++ [x])) (AMap f c a) k (length l) acc = Pan.
Proof.
  induction l as [|x l IH]; intros k c a acc H Hb; [inversion Hb|].
  destruct (items_step _ _ _ _ _ _ H) as (a' & E1 & I).
  cbn [fold_from length idx]. rewrite E1. cbn [obind].
  inversion Hb as [c0 x0 l0 Ef|c0 x0 c' y l0 Ef Hl]; subst; rewrite Ef; cbn [obind]; auto.
Qed.

(** ** Collecting into options and results *)

Lemma upd_mid {A} : forall (l : list A) x r v, upd (l ++ x :: r) (length l) v = l ++ v :: r.
Proof. induction l as [|y l IH]; intros x r v; cbn; auto. f_equal. auto. Qed.

Lemma all_init_some {A} (l : list A) : all_init (map Some l) = Ret l.
Proof. induction l as [|x l IH]; cbn; auto. rewrite IH. auto. Qed.

Definition filled {A} (n : nat) (d : list A) : list (option A) := map Some d ++ repeat None (n - length d).

Lemma filled_write {A} n (d : list A) v : length d < n ->
  write (array_static A) (filled n d) (length d) v = Ret (inl (filled n (d ++ [v]))).
Proof.
  intros H. unfold filled. cbn [write array_static].
  rewrite app_length, map_length, repeat_length.
  replace (Nat.ltb (length d) (length d + (n - length d))) with true by (symmetry; apply Nat.ltb_lt; lia).
  destruct (n - length d) as [|m] eqn:E; [lia|]. cbn [repeat]. rewrite <- (map_length Some d) at 1. rewrite upd_mid.
  rewrite map_app, <- app_assoc, app_length. cbn. replace (n - (length d + 1)) with m by lia. auto.
Qed.

Lemma filled_full {A} n (d : list A) : length d = n -> filled n d = map Some d.
Proof. intros <-. unfold filled. rewrite Nat.sub_diag. cbn. apply app_nil_r. Qed.

Lemma option_run {T} n : forall vs rest d (a : adapter (option T)), ready n (length d) a ->
  items n (length d) a (map Some vs ++ rest) -> length d + length vs + length rest = n ->
  exists a', ready n (length (d ++ vs)) a' /\ items n (length (d ++ vs)) a' rest /\
  try_from (fun s k x => write (option_static (array_static T)) s k x) a (length d) (length vs + length rest) (filled n d)
  = try_from (fun s k x => write (option_static (array_static T)) s k x) a' (length (d ++ vs)) (length rest) (filled n (d ++ vs)).
Proof.
  induction vs as [|v vs IH]; intros rest d a R H E.
  - exists a. rewrite app_nil_r. auto.
  - cbn [map app] in H. destruct (both_step _ _ _ _ _ _ R H) as (a' & E1 & R' & H').
    cbn in E. destruct (IH rest (d ++ [v]) a') as (a2 & R2 & I2 & E2).
    + rewrite app_length, Nat.add_1_r. auto.
    + rewrite app_length, Nat.add_1_r. auto.
    + rewrite app_length. cbn [length]. lia.
    + rewrite <- app_assoc in *. cbn [app] in *. exists a2. split; auto. split; auto.
      rewrite <- E2. cbn [try_from length Nat.add]. rewrite E1. cbn [obind].
      cbn [write option_static]. rewrite filled_write by lia. cbn [obind].
      rewrite app_length. cbn [length]. rewrite Nat.add_1_r. auto.
Qed.

Lemma result_run {T E} n : forall vs rest d (a : adapter (T + E)), ready n (length d) a ->
  items n (length d) a (map inl vs ++ rest) -> length d + length vs + length rest = n ->
  exists a', ready n (length (d ++ vs)) a' /\ items n (length (d ++ vs)) a' rest /\
  try_from (fun s k x => write (result_static (array_static T)) s k x) a (length d) (length vs + length rest) (filled n d)
  = try_from (fun s k x => write (result_static (array_static T)) s k x) a' (length (d ++ vs)) (length rest) (filled n (d ++ vs)).
Proof.
  induction vs as [|v vs IH]; intros rest d a R H L.
  - exists a. rewrite app_nil_r. auto.
  - cbn [map app] in H. destruct (both_step _ _ _ _ _ _ R H) as (a' & E1 & R' & H').
    cbn in L. destruct (IH rest (d ++ [v]) a') as (a2 & R2 & I2 & E2).
    + rewrite app_length, Nat.add_1_r. auto.
    + rewrite app_length, Nat.add_1_r. auto.
    + rewrite app_length. cbn [length]. lia.
    + rewrite <- app_assoc in *. cbn [app] in *. exists a2. split; auto. split; auto.
      rewrite <- E2. cbn [try_from length Nat.add]. rewrite E1. cbn [obind].
      cbn [write result_static]. rewrite filled_write by lia. cbn [obind].
      rewrite app_length. cbn [length]. rewrite Nat.add_1_r. auto.
Qed.

(** [all] with a closure known only on the yielded elements. *)
Lemma all_run_on {A} (f : unit -> A -> out (unit * bool)) (p : A -> bool) n : forall l k a, ready n k a -> items n k a l -> k + length l = n ->
  (forall x, In x l -> f tt x = Ret (tt, p x)) ->
  exists a', try_from (fun c _ x => obind (f c x) (fun '(c', b) => Ret (if b : bool then inl c' else inr tt))) a k (length l) tt
    = Ret (a', if forallb p l then inl tt else inr tt).
Proof.
  induction l as [|x l IH]; intros k a R H E Hf; cbn [try_from forallb length].
  - exists a. auto.
  - destruct (both_step _ _ _ _ _ _ R H) as (a' & E1 & R' & H'). rewrite E1. cbn [obind].
    rewrite (Hf x) by (left; auto). cbn [obind]. destruct (p x); cbn [andb].
    + apply (IH (S k) a' R' H'); [cbn in E; lia|]. intros y Hy. apply Hf. right. auto.
    + exists a'. auto.
Qed.

Lemma all_on {A} (f : unit -> A -> out (unit * bool)) (p : A -> bool) n l a : fresh n a -> items n 0 a l ->
  (forall x, In x l -> f tt x = Ret (tt, p x)) -> exists a', it_all n a tt f = Ret (a', forallb p l).
Proof.
  intros F H Hf. pose proof (items_length _ _ _ _ _ H) as L. rewrite Nat.sub_0_r in L.
  destruct (all_run_on f p n l 0 a (fresh_ready _ _ _ F) H) as (a' & E); [lia|auto|].
  exists a'. unfold it_all, it_try_fold. rewrite L in E. rewrite E. cbn [obind]. destruct (forallb p l); auto.
Qed.
