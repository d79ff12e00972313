(** C186: algebraic laws of matrices, cross products and complex numbers of [U<N>] and [I<N>], overflow included. *)
From Coq Require Import ZArith Zdiv List Bool Lia Setoid Morphisms.
From Verif Require Import Base Words Spec Arith BitSliceModel BitSliceProofs UModel UProofs IModel IProofs
  StaticIterModel StaticIterSpec StaticIterProofs CompoundsSpec
  VectorModel VectorProofs MatrixModel MatrixProofs CompoundIntModel CompoundRows UCompoundModel PropBits PropUCompound.
Import ListNotations.
Local Open Scope Z_scope.

(** Both sides return the same; or, for [U<N>] with overflow checks only, one of them panics. *)
Definition same {A} (t : element) (r r' : out A) : Prop :=
  (exists x, r = Ret x /\ r' = Ret x) \/ t = Unsigned true /\ (r = Pan \/ r' = Pan).

(** A matrix of [row] rows and [col] columns of [n]-byte integers. *)
Definition byte_matrix (n row col : nat) (m : list (list (list Z))) : Prop := shape row col m /\ Forall (Forall (element_of n)) m.

(** ** Matrices standing for matrices of integers modulo 2^(8n) *)

Fixpoint zsum (k : nat) (f : nat -> Z) : Z := match k with O => 0 | S k' => zsum k' f + f k' end.

Lemma zsum_ext k f g : (forall i, (i < k)%nat -> f i = g i) -> zsum k f = zsum k g.
Proof. induction k as [|k IH]; intros H; cbn [zsum]; [reflexivity|]. rewrite IH, H by auto. reflexivity. Qed.
Lemma zsum_congr c k f g : (forall i, (i < k)%nat -> congruent c (f i) (g i)) -> congruent c (zsum k f) (zsum k g).
Proof. induction k as [|k IH]; intros H; cbn [zsum]; [reflexivity|]. rewrite IH, H by auto. reflexivity. Qed.
Lemma zsum_add k f g : zsum k (fun i => f i + g i) = zsum k f + zsum k g.
Proof. induction k as [|k IH]; cbn [zsum]; [reflexivity|]. rewrite IH. ring. Qed.
Lemma zsum_mul_l k f c : zsum k (fun i => c * f i) = c * zsum k f.
Proof. induction k as [|k IH]; cbn [zsum]; [ring|]. rewrite IH. ring. Qed.
Lemma zsum_mul_r k f c : zsum k (fun i => f i * c) = zsum k f * c.
Proof. induction k as [|k IH]; cbn [zsum]; [ring|]. rewrite IH. ring. Qed.
Lemma zsum_zero k : zsum k (fun _ => 0) = 0.
Proof. induction k as [|k IH]; cbn [zsum]; [ring|]. rewrite IH. ring. Qed.
Lemma zsum_swap k l f : zsum k (fun i => zsum l (f i)) = zsum l (fun j => zsum k (fun i => f i j)).
Proof. induction k as [|k IH]; cbn [zsum]; [symmetry; apply zsum_zero|]. rewrite IH, zsum_add. reflexivity. Qed.
Lemma zsum_delta k i f : (i < k)%nat -> zsum k (fun j => if Nat.eqb i j then f j else 0) = f i.
Proof.
  revert i. induction k as [|k IH]; intros i Hi; [lia|]. cbn [zsum]. destruct (Nat.eq_dec i k) as [->|N].
  - rewrite Nat.eqb_refl, (zsum_ext k _ (fun _ => 0)), zsum_zero; [ring|]. intros j Hj. destruct (Nat.eqb_spec k j); [lia|reflexivity].
  - rewrite IH by lia. destruct (Nat.eqb_spec i k); [lia|ring].
Qed.
Lemma zsum_shift k f : zsum (S k) f = f 0%nat + zsum k (fun i => f (S i)).
Proof. induction k as [|k IH]; [cbn [zsum]; ring|]. rewrite <- Nat.add_1_r at 1. replace (S k + 1)%nat with (S (S k)) by lia. change (zsum (S (S k)) f) with (zsum (S k) f + f (S k)). rewrite IH. cbn [zsum]. ring. Qed.
Lemma zdot_zsum a b : length b = length a -> zdot a b = zsum (length a) (fun k => nth k a 0 * nth k b 0).
Proof.
  revert b. induction a as [|x a IH]; intros [|y b] L; try discriminate; [reflexivity|]. change (length (x :: a)) with (S (length a)).
  rewrite zsum_shift. cbn [zdot nth]. rewrite IH by (cbn in L; lia). reflexivity.
Qed.

Section Matrices.
Context (t : element) (n : nat) (Hn : (0 < n)%nat).
Notation "a == b" := (congruent (cap 8 n) a b) (at level 70).
Notation num := (number t).

Lemma same_number x y : element_of n x -> element_of n y -> num x == num y -> x = y.
Proof.
  intros Ox Oy E. apply (holds_iff t n Hn) in E; [|exact Ox].
  destruct (C160_stored t n (num y) Hn) as (_ & _ & I). rewrite I in E by (apply number_range; auto). clear I.
  destruct Ox as [Wx Lx], Oy as [Wy Ly]. apply (val_inj 8); auto; [congruence|]. destruct t; [exact E|]. cbn [number] in E. unfold sval in E. rewrite Lx, Ly in E.
  pose proof (val_bound 8 x Wx) as Bx. pose proof (val_bound 8 y Wy) as By. rewrite Lx in Bx. rewrite Ly in By.
  destruct (2 * val 8 x <? cap 8 n) eqn:Qx, (2 * val 8 y <? cap 8 n) eqn:Qy; lia.
Qed.

Definition stands_for (row col : nat) (m : list (list (list Z))) (F : nat -> nat -> Z) : Prop :=
  byte_matrix n row col m /\ forall i j v, entry m i j = Some v -> num v == F i j.
Definition returns (row col : nat) (r : out (list (list (list Z)))) (F : nat -> nat -> Z) : Prop :=
  may_panic t /\ r = Pan \/ exists m, r = Ret m /\ stands_for row col m F.
Definition integers (m : list (list (list Z))) (i j : nat) : Z := num (at_ [] m i j).

Lemma entry_element row col m i j v : byte_matrix n row col m -> entry m i j = Some v -> element_of n v.
Proof.
  intros [_ F] E. unfold entry in E. destruct (nth_error m i) as [r|] eqn:R; [|discriminate]. apply nth_error_In in R, E.
  rewrite Forall_forall in F. specialize (F r R). rewrite Forall_forall in F. auto.
Qed.
Lemma from_entries row col m : shape row col m -> (forall i j v, entry m i j = Some v -> element_of n v) -> byte_matrix n row col m.
Proof.
  intros S H. split; [exact S|]. apply Forall_forall. intros r R. apply Forall_forall. intros v V. apply In_nth_error in R, V. destruct R as [i R], V as [j V].
  apply (H i j). unfold entry. rewrite R. exact V.
Qed.
Lemma stands_itself row col m : byte_matrix n row col m -> stands_for row col m (integers m).
Proof. intros B. split; [exact B|]. intros i j v E. unfold integers, at_. rewrite E. reflexivity. Qed.

Lemma returns_same row col r r' F G : returns row col r F -> returns row col r' G ->
  (forall i j, (i < row)%nat -> (j < col)%nat -> F i j = G i j) -> same t r r'.
Proof.
  intros [[P ->]|(m & -> & Bm & Em)] [[P' ->]|(m' & -> & Bm' & Em')] H; try (right; split; [assumption|auto]; fail).
  left. exists m. split; [reflexivity|]. f_equal. apply (entry_ext row col); [apply Bm'|apply Bm|]. intros i j Hi Hj.
  pose proof (entry_at [] row col m i j ltac:(apply Bm) Hi Hj) as E. pose proof (entry_at [] row col m' i j ltac:(apply Bm') Hi Hj) as E'.
  rewrite E, E'. f_equal. apply same_number; [apply (entry_element _ _ _ _ _ _ Bm' E')|apply (entry_element _ _ _ _ _ _ Bm E)|]. rewrite (Em i j _ E), (Em' i j _ E'), H by auto. reflexivity.
Qed.
Lemma returns_bind row col row' col' r f F G : returns row col r F -> (forall m, stands_for row col m F -> returns row' col' (f m) G) -> returns row' col' (obind r f) G.
Proof. intros [[P ->]|(m & -> & S)] H; [left; auto|]. apply H. exact S. Qed.

Lemma product_returns row col col2 a b A B : (0 < col)%nat -> stands_for row col a A -> stands_for col col2 b B ->
  returns row col2 (ym_mul t row col col2 a b) (fun i j => zsum col (fun k => A i k * B k j)).
Proof.
  intros Hc [[Sa Fa] Ea] [[Sb Fb] Eb]. destruct (C160_matrix_product t n row col col2 a b Hn Hc Sa Sb Fa Fb) as [H|(p & E & Sp & Ep)]; [left; exact H|].
  right. exists p. split; [exact E|]. split; [apply from_entries; [exact Sp|]; intros i j v Ev; apply (Ep i j v Ev)|].
  intros i j v Ev. destruct (Ep i j v Ev) as [Ov Hv]. apply (holds_iff t n Hn) in Hv; [|exact Ov]. rewrite Hv. clear Hv.
  assert (i < row /\ j < col2)%nat as [Hi Hj].
  { split; [destruct (Nat.lt_ge_cases i row) as [L|L]|destruct (Nat.lt_ge_cases j col2) as [L|L]]; auto; exfalso; rewrite (entry_out row col2 p i j Sp) in Ev by auto; discriminate. }
  assert (length (row_of a i) = col) as Lr. { destruct (shape_row row col a i Sa Hi) as (r & R & L). unfold row_of. rewrite (nth_error_nth a i [] R). exact L. }
  assert (length (column_of [] b j) = col) as Lc by (unfold column_of; rewrite map_length; apply Sb).
  rewrite zdot_zsum by (rewrite !map_length; congruence). rewrite map_length, Lr. apply zsum_congr. intros k Hk.
  rewrite (nth_indep _ 0 (num [])), map_nth by (rewrite map_length; lia). rewrite (nth_indep (map num (column_of _ _ _)) 0 (num [])), map_nth by (rewrite map_length; lia).
  rewrite <- (at_row [] row col a i k Sa Hi Hk), <- (at_column [] col col2 b k j Sb Hk Hj).
  rewrite (Ea i k _ (entry_at [] row col a i k Sa Hi Hk)), (Eb k j _ (entry_at [] col col2 b k j Sb Hk Hj)). reflexivity.
Qed.

Lemma Forall3_entry {A B C} (R : A -> B -> C -> Prop) a b c : Forall3 (Forall3 R) a b c -> forall i j z, entry c i j = Some z ->
  exists x y, entry a i j = Some x /\ entry b i j = Some y /\ R x y z.
Proof.
  assert (forall A B C (R : A -> B -> C -> Prop) a b c, Forall3 R a b c -> forall i z, nth_error c i = Some z -> exists x y, nth_error a i = Some x /\ nth_error b i = Some y /\ R x y z) as N.
  { clear. induction 1 as [|x y z a b c H F IH]; intros [|i] u E; try discriminate; cbn [nth_error] in *; [|apply IH; exact E].
    assert (u = z) as -> by congruence. exists x, y. auto. }
  intros F i j z E. unfold entry in *. destruct (nth_error c i) as [r|] eqn:Er; [|discriminate].
  destruct (N _ _ _ _ _ _ _ F i r Er) as (ra & rb & -> & -> & F'). apply (N _ _ _ _ _ _ _ F' j z E).
Qed.
Lemma Forall3_shape {A B C} (R : A -> B -> C -> Prop) row col a b c : Forall3 (Forall3 R) a b c -> shape row col a -> shape row col c.
Proof.
  assert (forall A B C (R : A -> B -> C -> Prop) a b c, Forall3 R a b c -> length c = length a) as L.
  { clear. induction 1; cbn [length]; congruence. }
  intros F [La Fa]. split; [rewrite (L _ _ _ _ _ _ _ F); exact La|]. clear La. induction F as [|x y z a b c H F IH]; constructor.
  - inversion Fa; subst. apply (L _ _ _ _ _ _ _ H).
  - inversion Fa; subst. auto.
Qed.
Lemma elementwise_returns op zop row col a b A B : In (op, zop) (byte_ops t) -> (forall x x' y y', x == x' -> y == y' -> zop x y == zop x' y') ->
  stands_for row col a A -> stands_for row col b B -> returns row col (ym_op op row col a b) (fun i j => zop (A i j) (B i j)).
Proof.
  intros I C [[Sa Fa] Ea] [[Sb Fb] Eb]. destruct (C160_matrix_elementwise t n op zop row col a b Hn I Sa Sb Fa Fb) as [H|(c & E & F)]; [left; exact H|].
  right. exists c. split; [exact E|]. pose proof (Forall3_entry _ a b c F) as X. split.
  - apply from_entries; [eapply Forall3_shape; eassumption|]. intros i j v Ev. destruct (X i j v Ev) as (x & y & _ & _ & H). apply H.
  - intros i j v Ev. destruct (X i j v Ev) as (x & y & Ex & Ey & Ov & Hv). apply (holds_iff t n Hn) in Hv; [|exact Ov]. rewrite Hv. apply C; auto.
Qed.
Lemma sum_returns row col a b A B : stands_for row col a A -> stands_for row col b B -> returns row col (ym_op (bq_add t) row col a b) (fun i j => A i j + B i j).
Proof. apply (elementwise_returns (bq_add t) Z.add); [left; reflexivity|]. intros x x' y y' -> ->. reflexivity. Qed.
Lemma difference_returns row col a b A B : stands_for row col a A -> stands_for row col b B -> returns row col (ym_op (bq_sub t) row col a b) (fun i j => A i j - B i j).
Proof. apply (elementwise_returns (bq_sub t) Z.sub); [right; left; reflexivity|]. intros x x' y y' -> ->. reflexivity. Qed.
Lemma transpose_returns row col a A : stands_for row col a A -> returns col row (transpose col a) (fun i j => A j i).
Proof.
  intros [[Sa Fa] Ea]. right. exists (tabulate col row (fun i j => at_ [] a j i)). split; [apply transpose_ok; exact Sa|].
  assert (forall i j v, entry (tabulate col row (fun i j => at_ [] a j i)) i j = Some v -> entry a j i = Some v) as X.
  { intros i j v E. assert (i < col /\ j < row)%nat as [Hi Hj].
    { split; [destruct (Nat.lt_ge_cases i col) as [L|L]|destruct (Nat.lt_ge_cases j row) as [L|L]]; auto; exfalso; rewrite (entry_out col row) in E; auto using tabulate_shape; discriminate. }
    rewrite tabulate_entry in E by auto. rewrite (entry_at [] row col) by auto. exact E. }
  split; [apply from_entries; [apply tabulate_shape|]|]; intros i j v E; apply X in E; [eapply entry_element; [split; eassumption|exact E]|]. apply Ea; exact E.
Qed.
Lemma number_one : element_of n (u_one n) /\ num (u_one n) == 1.
Proof.
  split; [split; [apply wf_u_one|apply length_u_one]|]. assert (val 8 (u_one n) = 1) as V by (apply val_u_one; exact Hn). destruct t; cbn [number]; [rewrite V; reflexivity|].
  unfold sval. rewrite V. destruct (_ <? _); [reflexivity|]. rewrite length_u_one. exists (-1). ring.
Qed.
Lemma number_zero : element_of n (zeros n) /\ num (zeros n) == 0.
Proof.
  split; [split; [apply wf_zeros|apply length_zeros]|]. destruct t; cbn [number]; [rewrite val_zeros; reflexivity|].
  unfold sval. rewrite val_zeros. destruct (_ <? _); [reflexivity|]. rewrite length_zeros. exists (-1). ring.
Qed.
Lemma one_returns row : returns row row (mat_one (zeros n) (u_one n) row row) (fun i j => if Nat.eqb i j then 1 else 0).
Proof.
  right. exists (tabulate row row (fun i j => if Nat.eqb i j then u_one n else zeros n)). split.
  { unfold mat_one, tabulate. apply from_fn_ok. intros i Hi. apply from_fn_ok. reflexivity. }
  assert (forall i j v, entry (tabulate row row (fun i j => if Nat.eqb i j then u_one n else zeros n)) i j = Some v -> v = if Nat.eqb i j then u_one n else zeros n) as X.
  { intros i j v E. assert (i < row /\ j < row)%nat as [Hi Hj].
    { split; [destruct (Nat.lt_ge_cases i row) as [L|L]|destruct (Nat.lt_ge_cases j row) as [L|L]]; auto; exfalso; rewrite (entry_out row row) in E; auto using tabulate_shape; discriminate. }
    rewrite tabulate_entry in E by auto. congruence. }
  split; [apply from_entries; [apply tabulate_shape|]|]; intros i j v E; apply X in E; subst v; destruct (Nat.eqb i j);
    try apply number_one; apply number_zero.
Qed.
End Matrices.

(** Matrix products associate and distribute over sums and differences, the identity is neutral, transposition reverses products and
    undoes itself, sums commute and associate and differences undo them. *)
Theorem C186_matrices : forall t n p q r s a a' b b' c, (0 < n)%nat -> (0 < p)%nat -> (0 < q)%nat -> (0 < r)%nat ->
  byte_matrix n p q a -> byte_matrix n p q a' -> byte_matrix n q r b -> byte_matrix n q r b' -> byte_matrix n r s c ->
  let add := bq_add t in let sub := bq_sub t in
  same t (obind (ym_mul t p q r a b) (fun ab => ym_mul t p r s ab c)) (obind (ym_mul t q r s b c) (fun bc => ym_mul t p q s a bc)) /\
  same t (obind (ym_op add q r b b') (fun d => ym_mul t p q r a d)) (obind (ym_mul t p q r a b) (fun x => obind (ym_mul t p q r a b') (fun y => ym_op add p r x y))) /\
  same t (obind (ym_op sub q r b b') (fun d => ym_mul t p q r a d)) (obind (ym_mul t p q r a b) (fun x => obind (ym_mul t p q r a b') (fun y => ym_op sub p r x y))) /\
  same t (obind (ym_op add p q a a') (fun d => ym_mul t p q r d b)) (obind (ym_mul t p q r a b) (fun x => obind (ym_mul t p q r a' b) (fun y => ym_op add p r x y))) /\
  same t (obind (mat_one (zeros n) (u_one n) p p) (fun e => ym_mul t p p q e a)) (Ret a) /\
  same t (obind (mat_one (zeros n) (u_one n) q q) (fun e => ym_mul t p q q a e)) (Ret a) /\
  same t (obind (ym_mul t p q r a b) (fun ab => transpose r ab))
    (obind (transpose q a) (fun a => obind (transpose r b) (fun b => ym_mul t r q p b a))) /\
  same t (obind (transpose q a) (fun x => transpose p x)) (Ret a) /\
  same t (ym_op add p q a a') (ym_op add p q a' a) /\
  same t (obind (ym_op add p q a a') (fun x => ym_op sub p q x a')) (Ret a) /\
  same t (obind (ym_op sub p q a a') (fun x => ym_op add p q x a')) (Ret a).
Proof.
  intros t n p q r s a a' b b' c Hn Hp Hq Hr Ba Ba' Bb Bb' Bc. cbv zeta.
  pose proof (stands_itself t n p q a Ba) as Sa. pose proof (stands_itself t n p q a' Ba') as Sa'.
  pose proof (stands_itself t n q r b Bb) as Sb. pose proof (stands_itself t n q r b' Bb') as Sb'. pose proof (stands_itself t n r s c Bc) as Sc.
  set (A := integers t a) in *. set (A' := integers t a') in *. set (B := integers t b) in *. set (B' := integers t b') in *. set (C := integers t c) in *.
  assert (returns t n p q (Ret a) A) as Ra by (right; exists a; auto).
  pose proof (returns_bind t n) as Bind.
  split; [|split; [|split; [|split; [|split; [|split; [|split; [|split; [|split; [|split]]]]]]]]].
  - eapply (returns_same t n Hn p s).
    + eapply Bind; [apply (product_returns t n Hn p q r a b); eassumption|]. intros m Sm. apply (product_returns t n Hn); eassumption.
    + eapply Bind; [apply (product_returns t n Hn q r s b c); eassumption|]. intros m Sm. apply (product_returns t n Hn); eassumption.
    + intros i j Hi Hj. cbv beta. rewrite (zsum_ext r _ (fun k => zsum q (fun l => A i l * B l k * C k j))) by (intros k _; symmetry; apply zsum_mul_r).
      rewrite zsum_swap. apply zsum_ext. intros k _. rewrite <- zsum_mul_l. apply zsum_ext. intros l _. ring.
  - eapply (returns_same t n Hn p r).
    + eapply Bind; [apply (sum_returns t n Hn q r b b'); eassumption|]. intros m Sm. apply (product_returns t n Hn); eassumption.
    + eapply Bind; [apply (product_returns t n Hn p q r a b); eassumption|]. intros m Sm. eapply Bind; [apply (product_returns t n Hn p q r a b'); eassumption|].
      intros m' Sm'. apply (sum_returns t n Hn); eassumption.
    + intros i j Hi Hj. cbv beta. rewrite <- zsum_add. apply zsum_ext. intros k _. ring.
  - eapply (returns_same t n Hn p r).
    + eapply Bind; [apply (difference_returns t n Hn q r b b'); eassumption|]. intros m Sm. apply (product_returns t n Hn); eassumption.
    + eapply Bind; [apply (product_returns t n Hn p q r a b); eassumption|]. intros m Sm. eapply Bind; [apply (product_returns t n Hn p q r a b'); eassumption|].
      intros m' Sm'. apply (difference_returns t n Hn); eassumption.
    + intros i j Hi Hj. cbv beta. rewrite <- Z.add_opp_r, <- (Z.mul_1_l (zsum q (fun k => A i k * B' k j))), <- Z.mul_opp_l, <- zsum_mul_l, <- zsum_add.
      apply zsum_ext. intros k _. ring.
  - eapply (returns_same t n Hn p r).
    + eapply Bind; [apply (sum_returns t n Hn p q a a'); eassumption|]. intros m Sm. apply (product_returns t n Hn); eassumption.
    + eapply Bind; [apply (product_returns t n Hn p q r a b); eassumption|]. intros m Sm. eapply Bind; [apply (product_returns t n Hn p q r a' b); eassumption|].
      intros m' Sm'. apply (sum_returns t n Hn); eassumption.
    + intros i j Hi Hj. cbv beta. rewrite <- zsum_add. apply zsum_ext. intros k _. ring.
  - eapply (returns_same t n Hn p q); [eapply Bind; [apply (one_returns t n Hn p)|]; intros m Sm; apply (product_returns t n Hn); eassumption|exact Ra|].
    intros i j Hi Hj. cbv beta. rewrite (zsum_ext p _ (fun k => if Nat.eqb i k then A k j else 0)); [apply (zsum_delta p i (fun k => A k j) Hi)|].
    intros k _. destruct (Nat.eqb i k); ring.
  - eapply (returns_same t n Hn p q); [eapply Bind; [apply (one_returns t n Hn q)|]; intros m Sm; apply (product_returns t n Hn); eassumption|exact Ra|].
    intros i j Hi Hj. cbv beta. rewrite (zsum_ext q _ (fun k => if Nat.eqb j k then A i k else 0)); [apply (zsum_delta q j (fun k => A i k) Hj)|].
    intros k _. rewrite (Nat.eqb_sym k j). destruct (Nat.eqb j k); ring.
  - eapply (returns_same t n Hn r p).
    + eapply Bind; [apply (product_returns t n Hn p q r a b); eassumption|]. intros m Sm. apply (transpose_returns t n p r m _ Sm).
    + eapply Bind; [apply (transpose_returns t n p q a _ Sa)|]. intros m Sm. eapply Bind; [apply (transpose_returns t n q r b _ Sb)|].
      intros m' Sm'. apply (product_returns t n Hn); eassumption.
    + intros i j Hi Hj. cbv beta. apply zsum_ext. intros k _. ring.
  - eapply (returns_same t n Hn p q); [eapply Bind; [apply (transpose_returns t n p q a _ Sa)|]; intros m Sm; apply (transpose_returns t n q p m _ Sm)|exact Ra|reflexivity].
  - eapply (returns_same t n Hn p q); [apply (sum_returns t n Hn); eassumption|apply (sum_returns t n Hn); eassumption|]. intros i j _ _. cbv beta. ring.
  - eapply (returns_same t n Hn p q); [eapply Bind; [apply (sum_returns t n Hn); eassumption|]; intros m Sm; apply (difference_returns t n Hn); eassumption|exact Ra|].
    intros i j _ _. cbv beta. ring.
  - eapply (returns_same t n Hn p q); [eapply Bind; [apply (difference_returns t n Hn); eassumption|]; intros m Sm; apply (sum_returns t n Hn); eassumption|exact Ra|].
    intros i j _ _. cbv beta. ring.
Qed.
Print Assumptions C186_matrices.

(** Products that overflow: 200 * 2 does not fit into a byte; with overflow checks the second one panics. *)
Example C186_matrices_demo : byte_matrix 1 2 2 [[[200]; [7]]; [[3]; [250]]] /\
  ym_mul Signed 2 2 2 [[[200]; [7]]; [[3]; [250]]] [[[2]; [90]]; [[255]; [4]]] = Ret [[[137]; [108]]; [[12]; [246]]] /\
  ym_mul (Unsigned true) 2 2 2 [[[200; 0]; [7; 0]]; [[3; 0]; [250; 0]]] [[[2; 200]; [90; 0]]; [[255; 0]; [4; 0]]] = Pan.
Proof. split; [split; [split; [reflexivity|repeat constructor]|repeat constructor; cbn; lia]|vm_compute; repeat split]. Qed.

(** ** Complex numbers *)

Section Complex.
Context (t : element) (n : nat) (Hn : (0 < n)%nat).
Notation "a == b" := (congruent (cap 8 n) a b) (at level 70).
Notation num := (number t).

Definition complex_for (c : complex (list Z)) (re im : Z) : Prop :=
  element_of n (real c) /\ element_of n (imag c) /\ num (real c) == re /\ num (imag c) == im.
Definition complex_returns (r : out (complex (list Z))) (re im : Z) : Prop := may_panic t /\ r = Pan \/ exists c, r = Ret c /\ complex_for c re im.

Lemma gives_returns re im r : gives_complex t n re im r -> forall re' im', re == re' -> im == im' -> complex_returns r re' im'.
Proof.
  intros [H|(c & E & [Or Vr] & [Oi Vi])] re' im' Hr Hi; [left; exact H|right; exists c]. split; [exact E|]. split; [exact Or|]. split; [exact Oi|].
  apply (holds_iff t n Hn) in Vr; [|exact Or]. apply (holds_iff t n Hn) in Vi; [|exact Oi]. rewrite Vr, Vi. auto.
Qed.
Lemma complex_same r r' re im re' im' : complex_returns r re im -> complex_returns r' re' im' -> re = re' -> im = im' -> same t r r'.
Proof.
  intros [[P ->]|([x y] & -> & Ox & Oy & Vx & Vy)] [[P' ->]|([x' y'] & -> & Ox' & Oy' & Vx' & Vy')] -> ->; try (right; split; [assumption|auto]; fail).
  cbn [real imag] in *. left. exists (Cx x y). split; [reflexivity|]. do 2 f_equal; apply (same_number t n Hn); auto; etransitivity; eauto; symmetry; auto.
Qed.
Lemma complex_bind r f re im re' im' : complex_returns r re im -> (forall c, complex_for c re im -> complex_returns (f c) re' im') -> complex_returns (obind r f) re' im'.
Proof. intros [[P ->]|(c & -> & S)] H; [left; auto|]. apply H. exact S. Qed.
Lemma complex_ops x y a b c d : complex_for x a b -> complex_for y c d ->
  complex_returns (yc_add t x y) (a + c) (b + d) /\ complex_returns (yc_sub t x y) (a - c) (b - d) /\
  complex_returns (yc_mul t x y) (a * c - b * d) (a * d + b * c).
Proof.
  intros (O1 & O2 & V1 & V2) (O3 & O4 & V3 & V4). destruct x as [xr xi], y as [yr yi]. cbn [real imag] in *.
  assert (Forall (element_of n) [xr; xi; yr; yi; xr]) as F by (repeat constructor; apply O1 || apply O2 || apply O3 || apply O4).
  destruct (C160_complex t n xr xi yr yi xr Hn F) as (A & S & M & _).
  split; [|split]; eapply gives_returns; try eassumption; rewrite ?V1, ?V2, ?V3, ?V4; reflexivity.
Qed.
Lemma complex_itself c : element_of n (real c) -> element_of n (imag c) -> complex_for c (num (real c)) (num (imag c)).
Proof. intros Or Oi. split; [exact Or|]. split; [exact Oi|]. split; reflexivity. Qed.
Lemma complex_one : complex_for (Cx (u_one n) (zeros n)) 1 0.
Proof. split; [apply (number_one t n Hn)|]. split; [apply (number_zero t n)|]. split; [apply (number_one t n Hn)|apply (number_zero t n)]. Qed.
End Complex.

(** The ring of complex numbers over [U<N>] and [I<N>]. *)
Theorem C186_complex : forall t n a b c, (0 < n)%nat -> Forall (fun z => element_of n (real z) /\ element_of n (imag z)) [a; b; c] ->
  let add := yc_add t in let sub := yc_sub t in let mul := yc_mul t in let one := Cx (u_one n) (zeros n) in
  same t (add a b) (add b a) /\ same t (mul a b) (mul b a) /\
  same t (obind (add a b) (fun x => add x c)) (obind (add b c) (fun x => add a x)) /\
  same t (obind (mul a b) (fun x => mul x c)) (obind (mul b c) (fun x => mul a x)) /\
  same t (obind (add b c) (fun x => mul a x)) (obind (mul a b) (fun x => obind (mul a c) (fun y => add x y))) /\
  same t (obind (sub b c) (fun x => mul a x)) (obind (mul a b) (fun x => obind (mul a c) (fun y => sub x y))) /\
  same t (obind (add a b) (fun x => sub x b)) (Ret a) /\ same t (obind (sub a b) (fun x => add x b)) (Ret a) /\
  same t (mul a one) (Ret a) /\ same t (mul one a) (Ret a).
Proof.
  intros t n a b c Hn F. cbv zeta.
  inversion F as [|? ? [Oa Oa'] F1]; subst. inversion F1 as [|? ? [Ob Ob'] F2]; subst. inversion F2 as [|? ? [Oc Oc'] _]; subst. clear F F1 F2.
  pose proof (complex_itself t n a Oa Oa') as Sa. pose proof (complex_itself t n b Ob Ob') as Sb. pose proof (complex_itself t n c Oc Oc') as Sc.
  pose proof (complex_one t n Hn) as S1.
  assert (complex_returns t n (Ret a) (number t (real a)) (number t (imag a))) as Ra by (right; exists a; auto).
  pose proof (fun x y p q r s X Y => proj1 (complex_ops t n Hn x y p q r s X Y)) as Add.
  pose proof (fun x y p q r s X Y => proj1 (proj2 (complex_ops t n Hn x y p q r s X Y))) as Sub.
  pose proof (fun x y p q r s X Y => proj2 (proj2 (complex_ops t n Hn x y p q r s X Y))) as Mul.
  pose proof (complex_bind t n) as Bind.
  split; [eapply (complex_same t n Hn); [apply Add; eassumption|apply Add; eassumption|ring|ring]|].
  split; [eapply (complex_same t n Hn); [apply Mul; eassumption|apply Mul; eassumption|ring|ring]|].
  split. { eapply (complex_same t n Hn); [eapply Bind; [apply Add; eassumption|]; intros m Sm; apply Add; eassumption|eapply Bind; [apply Add; [apply Sb|apply Sc]|]; intros m Sm; apply Add; eassumption|ring|ring]. }
  split. { eapply (complex_same t n Hn); [eapply Bind; [apply Mul; eassumption|]; intros m Sm; apply Mul; eassumption|eapply Bind; [apply Mul; [apply Sb|apply Sc]|]; intros m Sm; apply Mul; eassumption|ring|ring]. }
  split. { eapply (complex_same t n Hn); [eapply Bind; [apply Add; [apply Sb|apply Sc]|]; intros m Sm; apply Mul; eassumption
    |eapply Bind; [apply Mul; [apply Sa|apply Sb]|]; intros m Sm; eapply Bind; [apply Mul; [apply Sa|apply Sc]|]; intros m' Sm'; apply Add; eassumption|ring|ring]. }
  split. { eapply (complex_same t n Hn); [eapply Bind; [apply Sub; [apply Sb|apply Sc]|]; intros m Sm; apply Mul; eassumption
    |eapply Bind; [apply Mul; [apply Sa|apply Sb]|]; intros m Sm; eapply Bind; [apply Mul; [apply Sa|apply Sc]|]; intros m' Sm'; apply Sub; eassumption|ring|ring]. }
  split; [eapply (complex_same t n Hn); [eapply Bind; [apply Add; [apply Sa|apply Sb]|]; intros m Sm; apply Sub; eassumption|exact Ra|ring|ring]|].
  split; [eapply (complex_same t n Hn); [eapply Bind; [apply Sub; [apply Sa|apply Sb]|]; intros m Sm; apply Add; eassumption|exact Ra|ring|ring]|].
  split; eapply (complex_same t n Hn); try exact Ra; [apply Mul; eassumption|ring|ring|apply Mul; eassumption|ring|ring].
Qed.
Print Assumptions C186_complex.

Example C186_complex_demo : yc_mul Signed (Cx [200] [3]) (Cx [90] [250]) = Ret (Cx [98] [94]) /\ yc_mul Signed (Cx [90] [250]) (Cx [200] [3]) = Ret (Cx [98] [94]).
Proof. vm_compute. repeat split. Qed.

(** ** Cross products *)

(** The sum of two vectors of three components. *)
Definition sum3 (t : element) (u v : list Z * list Z * list Z) : out (list Z * list Z * list Z) :=
  let '(a, b, c) := u in let '(x, y, z) := v in
  obind (bq_add t a x) (fun p => obind (bq_add t b y) (fun q => obind (bq_add t c z) (fun r => Ret (p, q, r)))).
Definition three_of (n : nat) (u : list Z * list Z * list Z) : Prop := let '(a, b, c) := u in element_of n a /\ element_of n b /\ element_of n c.

Section Cross.
Context (t : element) (n : nat) (Hn : (0 < n)%nat).
Notation "a == b" := (congruent (cap 8 n) a b) (at level 70).
Notation num := (number t).
Definition three_for (u : list Z * list Z * list Z) (x y z : Z) : Prop :=
  let '(a, b, c) := u in three_of n u /\ num a == x /\ num b == y /\ num c == z.
Definition three_returns (r : out (list Z * list Z * list Z)) (x y z : Z) : Prop := may_panic t /\ r = Pan \/ exists u, r = Ret u /\ three_for u x y z.

Lemma three_same r r' x y z x' y' z' : three_returns r x y z -> three_returns r' x' y' z' -> x = x' -> y = y' -> z = z' -> same t r r'.
Proof.
  intros [[P ->]|([[a b] c] & -> & (Oa & Ob & Oc) & Va & Vb & Vc)] [[P' ->]|([[a' b'] c'] & -> & (Oa' & Ob' & Oc') & Va' & Vb' & Vc')] -> -> ->; try (right; split; [assumption|auto]; fail).
  left. exists (a, b, c). split; [reflexivity|].
  assert (a' = a) as -> by (apply (same_number t n Hn); auto; rewrite Va', Va; reflexivity).
  assert (b' = b) as -> by (apply (same_number t n Hn); auto; rewrite Vb', Vb; reflexivity).
  assert (c' = c) as -> by (apply (same_number t n Hn); auto; rewrite Vc', Vc; reflexivity). reflexivity.
Qed.
Lemma three_bind r f x y z x' y' z' : three_returns r x y z -> (forall u, three_for u x y z -> three_returns (f u) x' y' z') -> three_returns (obind r f) x' y' z'.
Proof. intros [[P ->]|(c & -> & S)] H; [left; auto|]. apply H. exact S. Qed.
Lemma cross_returns u v a b c x y z : three_for u a b c -> three_for v x y z ->
  three_returns (yv_cross t u v) (b * z - c * y) (c * x - a * z) (a * y - b * x).
Proof.
  destruct u as [[u1 u2] u3], v as [[v1 v2] v3]. intros ((O1 & O2 & O3) & V1 & V2 & V3) ((O4 & O5 & O6) & V4 & V5 & V6).
  assert (Forall (element_of n) [u1; u2; u3; v1; v2; v3]) as F by (repeat (constructor; [assumption|]); constructor).
  destruct (C160_cross t n u1 u2 u3 v1 v2 v3 Hn F) as [H|(p & q & r & E & [Op Vp] & [Oq Vq] & [Or Vr])]; [left; exact H|].
  apply (holds_iff t n Hn) in Vp; [|exact Op]. apply (holds_iff t n Hn) in Vq; [|exact Oq]. apply (holds_iff t n Hn) in Vr; [|exact Or].
  right. exists (p, q, r). split; [exact E|]. split; [split; auto|]. rewrite Vp, Vq, Vr, V1, V2, V3, V4, V5, V6. repeat split; reflexivity.
Qed.
Lemma sum3_returns u v a b c x y z : three_for u a b c -> three_for v x y z -> three_returns (sum3 t u v) (a + x) (b + y) (c + z).
Proof.
  destruct u as [[u1 u2] u3], v as [[v1 v2] v3]. intros ((O1 & O2 & O3) & V1 & V2 & V3) ((O4 & O5 & O6) & V4 & V5 & V6). unfold sum3.
  destruct (add_yields t n Hn u1 v1 O1 O4) as [[P ->]|(p & -> & Op & Vp)]; [left; auto|]. cbn [obind].
  destruct (add_yields t n Hn u2 v2 O2 O5) as [[P ->]|(q & -> & Oq & Vq)]; [left; auto|]. cbn [obind].
  destruct (add_yields t n Hn u3 v3 O3 O6) as [[P ->]|(r & -> & Or & Vr)]; [left; auto|]. cbn [obind].
  right. exists (p, q, r). split; [reflexivity|]. split; [split; auto|]. rewrite Vp, Vq, Vr, V1, V2, V3, V4, V5, V6. repeat split; reflexivity.
Qed.
End Cross.

(** Cross products are alternating, distribute over sums on both sides, and satisfy the identity of Jacobi. *)
Theorem C186_cross : forall t n u v w, (0 < n)%nat -> three_of n u -> three_of n v -> three_of n w ->
  let cross := yv_cross t in let sum := sum3 t in let zero := Ret (zeros n, zeros n, zeros n) in
  same t (cross u u) zero /\
  same t (obind (cross u v) (fun x => obind (cross v u) (fun y => sum x y))) zero /\
  same t (obind (sum v w) (fun x => cross u x)) (obind (cross u v) (fun x => obind (cross u w) (fun y => sum x y))) /\
  same t (obind (sum v w) (fun x => cross x u)) (obind (cross v u) (fun x => obind (cross w u) (fun y => sum x y))) /\
  same t (obind (obind (cross v w) (fun x => cross u x)) (fun x => obind (obind (cross w u) (fun y => cross v y)) (fun y =>
    obind (obind (cross u v) (fun z => cross w z)) (fun z => obind (sum x y) (fun s => sum s z))))) zero.
Proof.
  intros t n u v w Hn Ou Ov Ow. cbv zeta. destruct u as [[u1 u2] u3], v as [[v1 v2] v3], w as [[w1 w2] w3].
  assert (forall a b c, three_of n (a, b, c) -> three_for t n (a, b, c) (number t a) (number t b) (number t c)) as Self.
  { intros a b c O. split; [exact O|]. repeat split; reflexivity. }
  apply Self in Ou, Ov, Ow. clear Self.
  assert (three_returns t n (Ret (zeros n, zeros n, zeros n)) 0 0 0) as Rz.
  { right. exists (zeros n, zeros n, zeros n). split; [reflexivity|]. pose proof (number_zero t n) as [Oz Vz]. split; [split; auto|]. auto. }
  pose proof (cross_returns t n Hn) as Cr. pose proof (sum3_returns t n Hn) as Sm. pose proof (three_bind t n) as Bind.
  split; [eapply (three_same t n Hn); [apply Cr; [apply Ou|apply Ou]|exact Rz|ring..]|].
  split. { eapply (three_same t n Hn); [eapply Bind; [apply Cr; [apply Ou|apply Ov]|]; intros x X; eapply Bind; [apply Cr; [apply Ov|apply Ou]|]; intros y Y; apply Sm; eassumption|exact Rz|ring..]. }
  split. { eapply (three_same t n Hn); [eapply Bind; [apply Sm; [apply Ov|apply Ow]|]; intros x X; apply Cr; [apply Ou|apply X]
    |eapply Bind; [apply Cr; [apply Ou|apply Ov]|]; intros x X; eapply Bind; [apply Cr; [apply Ou|apply Ow]|]; intros y Y; apply Sm; eassumption|ring..]. }
  split. { eapply (three_same t n Hn); [eapply Bind; [apply Sm; [apply Ov|apply Ow]|]; intros x X; apply Cr; [apply X|apply Ou]
    |eapply Bind; [apply Cr; [apply Ov|apply Ou]|]; intros x X; eapply Bind; [apply Cr; [apply Ow|apply Ou]|]; intros y Y; apply Sm; eassumption|ring..]. }
  eapply (three_same t n Hn); [|exact Rz|..].
  - eapply Bind; [eapply Bind; [apply Cr; [apply Ov|apply Ow]|]; intros x X; apply Cr; [apply Ou|apply X]|]. intros x X.
    eapply Bind; [eapply Bind; [apply Cr; [apply Ow|apply Ou]|]; intros y Y; apply Cr; [apply Ov|apply Y]|]. intros y Y.
    eapply Bind; [eapply Bind; [apply Cr; [apply Ou|apply Ov]|]; intros z Z; apply Cr; [apply Ow|apply Z]|]. intros z Z.
    eapply Bind; [apply Sm; [apply X|apply Y]|]. intros s S. apply Sm; [apply S|apply Z].
  - ring.
  - ring.
  - ring.
Qed.
Print Assumptions C186_cross.

Example C186_cross_demo : yv_cross Signed ([200], [3], [90]) ([250], [7], [41]) = Ret ([5], [220], [138]) /\
  yv_cross Signed ([250], [7], [41]) ([200], [3], [90]) = Ret ([251], [36], [118]).
Proof. vm_compute. repeat split. Qed.

(** With overflow checks one side of a law may panic and the other return: 0 * (511 * 255) and (0 * 511) * 255 in [U<2>].  So "or one
    of them panics" in [same] is needed. *)
Theorem C186_checked_sides : exists a b c, byte_matrix 2 1 1 a /\ byte_matrix 2 1 1 b /\ byte_matrix 2 1 1 c /\
  obind (ym_mul (Unsigned true) 1 1 1 a b) (fun ab => ym_mul (Unsigned true) 1 1 1 ab c) = Ret [[[0; 0]]] /\
  obind (ym_mul (Unsigned true) 1 1 1 b c) (fun bc => ym_mul (Unsigned true) 1 1 1 a bc) = Pan.
Proof.
  exists [[[0; 0]]], [[[255; 1]]], [[[255; 0]]].
  assert (forall x y, 0 <= x < 256 -> 0 <= y < 256 -> byte_matrix 2 1 1 [[[x; y]]]) as B.
  { intros x y Hx Hy. split; [split; [reflexivity|repeat constructor]|]. repeat constructor; cbn; lia. }
  repeat (split; [apply B; lia|]). vm_compute. repeat split.
Qed.
Print Assumptions C186_checked_sides.
