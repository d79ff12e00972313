(** Lemmas on the generic code of vectors and matrices with operators that may panic: every element is computed or the whole
    operation panics (as in PropRatCompound.v, for any element type), which happens only in case [P]. *)
From Coq Require Import ZArith List Bool Lia.
From Verif Require Import Base StaticIterModel StaticIterSpec StaticIterProofs CompoundsSpec
  VectorModel VectorProofs MatrixModel MatrixProofs CompoundIntModel.
Import ListNotations.

(** Row [i] and column [j] of a matrix. *)
Definition row_of {T} (m : list (list T)) (i : nat) : list T := nth i m [].
Definition column_of {T} (d : T) (m : list (list T)) (j : nat) : list T := map (fun r => nth j r d) m.

Lemma fold_value {A R} (f : R -> A -> out R) n a l s : items n 0 a l -> value (it_fold n a s f) = ofold f l s.
Proof.
  intros H. pose proof (items_length _ _ _ _ _ H) as L. rewrite Nat.sub_0_r in L. unfold it_fold, value.
  destruct (fold_items f n l 0 a s H) as [(a' & s' & E1 & E2)|[[E1 E2]|[E1 E2]]]; [lia| | |]; rewrite L in E1; rewrite E1, E2; reflexivity.
Qed.

Lemma vec_op_cases {A B O} (P : Prop) (op : A -> B -> out O) (PA : A -> Prop) (PB : B -> Prop) (R : A -> B -> O -> Prop) :
  (forall x y, PA x -> PB y -> P /\ op x y = Pan \/ exists z, op x y = Ret z /\ R x y z) ->
  forall n a b, length a = n -> length b = n -> Forall PA a -> Forall PB b ->
  P /\ vec_op op n a b = Pan /\ vec_op_ref op n a b = Pan \/
  exists c, vec_op op n a b = Ret c /\ vec_op_ref op n a b = Ret c /\ Forall3 R a b c.
Proof.
  intros H n a b La Lb Fa Fb.
  assert (P /\ breaks (on_pair op) tt (combine a b) \/
    exists c, Forall3 (fun x y z => op x y = Ret z) a b c /\ Forall3 R a b c) as [[HP Br]|(c & F & G)].
  - rewrite <- Lb in La. clear Lb n. revert b La Fb. induction Fa as [|x a Px Fa IH]; intros [|y b] L Fb; try discriminate.
    + right. exists []. split; constructor.
    + inversion Fb; subst. destruct (H x y) as [[HP E]|(z & E & Rz)]; auto; [left; split; auto; apply breaks_here; cbn; rewrite E; auto|].
      destruct (IH b) as [[HP K]|(c & F & G)]; auto; [left; split; auto; eapply breaks_later; [cbn; rewrite E; reflexivity|exact K]|].
      right. exists (z :: c). split; constructor; auto.
  - left. split; auto. assert (length (combine a b) = n) as L by (rewrite combine_length; lia).
    split; unfold vec_op, vec_op_ref, collect_array, array_from_static_iter, it_map; rewrite <- L at 1;
      erewrite collect_map_pan with (n := n); eauto; cbn [items it_zip]; exists a, b; auto using into_items, ref_items.
  - right. exists c. split; [|split; auto]; [apply vec_op_ret|apply vec_op_ref_ret]; auto.
Qed.

Lemma array_map_cases {A O} (P : Prop) (f : A -> out O) (PA : A -> Prop) (R : A -> O -> Prop) :
  (forall x, PA x -> P /\ f x = Pan \/ exists z, f x = Ret z /\ R x z) ->
  forall a, Forall PA a -> P /\ array_map f a = Pan \/ exists c, array_map f a = Ret c /\ Forall2 R a c.
Proof.
  intros H. induction 1 as [|x a Px F IH]; cbn [array_map]; [right; exists []; auto|].
  destruct (H x Px) as [[HP ->]|(z & -> & Rz)]; [left; auto|]. cbn [obind]. destruct IH as [[HP ->]|(c & -> & G)]; [left; auto|].
  right. exists (z :: c). auto.
Qed.

Section Entry.
Context {T : Type} (d : T) (add mul : T -> T -> out T).

Definition entryf (col : nat) (a b : list (list T)) (i j : nat) : out T :=
  obind (mat_get a i 0) (fun x => obind (mat_get b 0 j) (fun y =>
    fold_left (fun acc k => obind acc (fun acc =>
      obind (mat_get a i k) (fun x => obind (mat_get b k j) (fun y => obind (mul x y) (fun p => add acc p)))))
      (seq 1 (col - 1)) (mul x y))).

Lemma fold_pan {A X} (f : A -> X -> out A) l : fold_left (fun acc k => obind acc (fun acc => f acc k)) l Pan = Pan.
Proof. induction l; cbn; auto. Qed.
Lemma fold_ub {A X} (f : A -> X -> out A) l : fold_left (fun acc k => obind acc (fun acc => f acc k)) l UB = UB.
Proof. induction l; cbn; auto. Qed.

Lemma at_row row col (a : list (list T)) i k : shape row col a -> (i < row)%nat -> (k < col)%nat ->
  at_ d a i k = nth k (row_of a i) d.
Proof.
  intros S Hi Hk. destruct (shape_row row col a i S Hi) as (r & E & L). unfold at_, entry, row_of. rewrite E.
  rewrite (nth_error_nth a i [] E). destruct (nth_error r k) eqn:Er; [erewrite nth_error_nth by exact Er; auto|].
  apply nth_error_None in Er. lia.
Qed.
Lemma at_column row col (a : list (list T)) k j : shape row col a -> (k < row)%nat -> (j < col)%nat ->
  at_ d a k j = nth k (column_of d a j) d.
Proof.
  intros S Hk Hj. destruct (shape_row row col a k S Hk) as (r & E & L). unfold at_, entry, column_of. rewrite E.
  rewrite (nth_error_nth (map (fun r => nth j r d) a) k d (x := nth j r d)) by (rewrite nth_error_map, E; reflexivity).
  destruct (nth_error r j) eqn:Er; [erewrite nth_error_nth by exact Er; auto|]. apply nth_error_None in Er. lia.
Qed.

Lemma skipn_nth (l : list T) k : (k < length l)%nat -> skipn k l = nth k l d :: skipn (S k) l.
Proof.
  revert k. induction l as [|x l IH]; intros [|k] H; cbn in *; try lia; auto. rewrite IH by lia. reflexivity.
Qed.

Lemma entry_zip row col col2 a b i j : shape row col a -> shape col col2 b -> (i < row)%nat -> (j < col2)%nat -> (0 < col)%nat ->
  length (row_of a i) = col /\ length (column_of d b j) = col /\
  entryf col a b i j = obind (mul (nth 0 (row_of a i) d) (nth 0 (column_of d b j) d))
    (zip_fold add mul (skipn 1 (row_of a i)) (skipn 1 (column_of d b j))).
Proof.
  intros Sa Sb Hi Hj Hc.
  assert (length (row_of a i) = col) as Lr. { destruct (shape_row row col a i Sa Hi) as (r & E & L). unfold row_of. rewrite (nth_error_nth a i [] E). auto. }
  assert (length (column_of d b j) = col) as Lc. { unfold column_of. rewrite map_length. apply Sb. }
  split; [|split]; auto. unfold entryf.
  rewrite (mat_get_at d row col a i 0 Sa Hi Hc), (mat_get_at d col col2 b 0 j Sb Hc Hj). cbn [obind].
  rewrite (at_row row col), (at_column col col2) by auto.
  assert (forall n s acc, (s + n = col)%nat -> fold_left (fun acc k => obind acc (fun acc =>
      obind (mat_get a i k) (fun x => obind (mat_get b k j) (fun y => obind (mul x y) (fun p => add acc p)))))
      (seq s n) (Ret acc) = zip_fold add mul (skipn s (row_of a i)) (skipn s (column_of d b j)) acc) as G.
  { induction n as [|n IH]; intros s acc E.
    - cbn [seq fold_left]. rewrite !skipn_all2 by lia. reflexivity.
    - cbn [seq fold_left]. cbn [obind]. rewrite (mat_get_at d row col a i s Sa Hi), (mat_get_at d col col2 b s j Sb) by lia. cbn [obind].
      rewrite (at_row row col), (at_column col col2) by (auto; lia).
      rewrite (skipn_nth (row_of a i) s), (skipn_nth (column_of d b j) s) by lia. cbn [zip_fold].
      destruct (mul (nth s (row_of a i) d) (nth s (column_of d b j) d)) as [p| |]; cbn [obind];
        [|apply (fold_pan (fun acc k => obind (mat_get a i k) (fun x => obind (mat_get b k j) (fun y => obind (mul x y) (fun p => add acc p)))))
         |apply (fold_ub (fun acc k => obind (mat_get a i k) (fun x => obind (mat_get b k j) (fun y => obind (mul x y) (fun p => add acc p)))))].
      destruct (add acc p) as [z| |]; cbn [obind];
        [|apply (fold_pan (fun acc k => obind (mat_get a i k) (fun x => obind (mat_get b k j) (fun y => obind (mul x y) (fun p => add acc p)))))
         |apply (fold_ub (fun acc k => obind (mat_get a i k) (fun x => obind (mat_get b k j) (fun y => obind (mul x y) (fun p => add acc p)))))].
      apply IH. lia. }
  destruct (mul (nth 0 (row_of a i) d) (nth 0 (column_of d b j) d)) as [p| |]; cbn [obind];
    [apply G; lia|apply (fold_pan (fun acc k => obind (mat_get a i k) (fun x => obind (mat_get b k j) (fun y => obind (mul x y) (fun p => add acc p)))))
         |apply (fold_ub (fun acc k => obind (mat_get a i k) (fun x => obind (mat_get b k j) (fun y => obind (mul x y) (fun p => add acc p)))))].
Qed.
End Entry.

Lemma from_fn_cases {T} (P : Prop) n (f : nat -> out T) (R : nat -> T -> Prop) : (forall i, (i < n)%nat -> P /\ f i = Pan \/ exists z, f i = Ret z /\ R i z) ->
  P /\ from_fn n f = Pan \/ exists l, from_fn n f = Ret l /\ length l = n /\ forall i z, nth_error l i = Some z -> R i z.
Proof.
  intros H. unfold from_fn. destruct (array_map_cases P f (fun i => (i < n)%nat) R H (seq 0 n)) as [E|(l & E & F)]; auto.
  - apply Forall_forall. intros i I. apply in_seq in I. lia.
  - right. exists l. split; auto. assert (n = length l) as L by (rewrite <- (seq_length n 0); clear - F; induction F; cbn; auto). split; auto. intros i z E'.
    assert (i < n)%nat as Hi. { rewrite L. apply nth_error_Some. congruence. }
    assert (forall s l m, Forall2 R (seq s m) l -> forall i z, nth_error l i = Some z -> R (s + i)%nat z) as K.
    { clear. intros s l m. revert s l. induction m as [|m IH]; intros s l F i z E; cbn in F; inversion F; subst; [destruct i; discriminate|].
      destruct i as [|i]; cbn in E; [injection E as ->; rewrite Nat.add_0_r; auto|]. replace (s + S i)%nat with (S s + i)%nat by lia. eapply IH; eauto. }
    exact (K 0%nat l n F i z E').
Qed.


Lemma row_all {T} (P : T -> Prop) (a : list (list T)) i : Forall (Forall P) a -> Forall P (row_of a i).
Proof.
  intros F. unfold row_of. destruct (nth_in_or_default i a []) as [I| ->]; [|constructor]. rewrite Forall_forall in F. auto.
Qed.
Lemma column_all {T} (d : T) (P : T -> Prop) row col (a : list (list T)) j : shape row col a -> (j < col)%nat -> Forall (Forall P) a ->
  Forall P (column_of d a j).
Proof.
  intros [_ S] Hj F. unfold column_of. apply Forall_forall. intros x I. apply in_map_iff in I. destruct I as (r & <- & Ir).
  rewrite Forall_forall in F, S. specialize (F r Ir). rewrite Forall_forall in F. apply F. apply nth_In. rewrite S; auto.
Qed.

(** The matrix product, entry by entry. *)
Lemma matf_cases {T} (P : Prop) (d : T) (add mul : T -> T -> out T) (R : nat -> nat -> T -> Prop) row col col2 a b :
  (0 < col)%nat -> shape row col a -> shape col col2 b ->
  (forall i j, (i < row)%nat -> (j < col2)%nat -> length (row_of a i) = col -> length (column_of d b j) = col ->
     let e := obind (mul (nth 0 (row_of a i) d) (nth 0 (column_of d b j) d))
       (zip_fold add mul (skipn 1 (row_of a i)) (skipn 1 (column_of d b j))) in
     P /\ e = Pan \/ exists z, e = Ret z /\ R i j z) ->
  P /\ matf_mul add mul row col col2 a b = Pan \/
  exists p, matf_mul add mul row col col2 a b = Ret p /\ shape row col2 p /\ forall i j v, entry p i j = Some v -> R i j v.
Proof.
  intros Hc Sa Sb H.
  change (matf_mul add mul row col col2 a b) with (from_fn row (fun i => from_fn col2 (fun j => entryf add mul col a b i j))).
  destruct (from_fn_cases P row (fun i => from_fn col2 (fun j => entryf add mul col a b i j))
    (fun i r => length r = col2 /\ forall j v, nth_error r j = Some v -> R i j v)) as [[HP ->]|(p & -> & L & G)]; auto.
  - intros i Hi. apply from_fn_cases. intros j Hj.
    destruct (entry_zip d add mul row col col2 a b i j Sa Sb Hi Hj Hc) as (Lr & Lc & ->). apply H; auto.
  - right. exists p. split; auto. split.
    + split; auto. apply Forall_forall. intros r I. apply In_nth_error in I. destruct I as (i & E). apply (G i r E).
    + intros i j v E. unfold entry in E. destruct (nth_error p i) as [r|] eqn:Er; try discriminate. apply (G i r Er). auto.
Qed.

Lemma each_pair_cases {A B} (P : Prop) (op : A -> B -> out A) (PA : A -> Prop) (PB : B -> Prop) (R : A -> B -> A -> Prop) :
  (forall x y, PA x -> PB y -> P /\ op x y = Pan \/ exists z, op x y = Ret z /\ R x y z) ->
  forall a b, length a = length b -> Forall PA a -> Forall PB b ->
  P /\ vec_assign op a b = Pan \/ exists c, vec_assign op a b = Ret c /\ Forall3 R a b c.
Proof.
  intros H. unfold vec_assign. induction a as [|x a IH]; intros [|y b] L Fa Fb; try discriminate; cbn [each_pair].
  - right. exists []. split; constructor.
  - inversion Fa; inversion Fb; subst. destruct (H x y) as [[HP ->]|(z & -> & Rz)]; auto. cbn [obind].
    destruct (IH b) as [[HP ->]|(c & -> & G)]; auto. right. exists (z :: c). split; auto. constructor; auto.
Qed.
