(** C160: vectors, matrices and complex numbers of [U<N>] and [I<N>]. *)
From Coq Require Import ZArith Zdiv List Bool Lia Setoid Morphisms.
From Verif Require Import Base Words Spec Arith BitSliceModel BitSliceProofs ElementModel UModel UProofs IModel IProofs PropU PropI PropUExpr
  StaticIterModel StaticIterSpec StaticIterProofs CompoundsSpec
  VectorModel VectorProofs MatrixModel MatrixProofs CompoundIntModel CompoundRows UCompoundModel.
From Verif Require UExprModel.
Import ListNotations.
Local Open Scope Z_scope.

(** ** What is claimed of a result *)

(** An element of [n] bytes, the integer it stands for, and the integer it stands for when [z] is stored in it. *)
Definition element_of (n : nat) (x : list Z) : Prop := wf 8 x /\ length x = n.
Definition number (t : element) (x : list Z) : Z := match t with Unsigned _ => val 8 x | Signed => sval x end.
Definition stored (t : element) (n : nat) (z : Z) : Z := match t with Unsigned _ => z mod cap 8 n | Signed => swrap n z end.
(** The integers that can be stored unchanged. *)
Definition representable (t : element) (n : nat) (z : Z) : Prop :=
  match t with Unsigned _ => 0 <= z < cap 8 n | Signed => - cap 8 n <= 2 * z < cap 8 n end.

Definition holds (t : element) (n : nat) (z : Z) (x : list Z) : Prop := element_of n x /\ number t x = stored t n z.

(** Only [U<N>] with overflow checks may panic. *)
Definition may_panic (t : element) : Prop := t = Unsigned true.
Definition gives (t : element) (n : nat) (z : Z) (r : out (list Z)) : Prop :=
  may_panic t /\ r = Pan \/ exists x, r = Ret x /\ holds t n z x.

Fixpoint zdot (a b : list Z) : Z := match a, b with x :: a', y :: b' => x * y + zdot a' b' | _, _ => 0 end.

Lemma cap_two n : cap 8 n = 2 ^ Z.of_nat (8 * n).
Proof. unfold cap. f_equal. lia. Qed.

(** Storing keeps the residue modulo 2^(8N), and representable integers. *)
Theorem C160_stored : forall t n z, (0 < n)%nat ->
  representable t n (stored t n z) /\ stored t n z mod 2 ^ Z.of_nat (8 * n) = z mod 2 ^ Z.of_nat (8 * n) /\
  (representable t n z -> stored t n z = z).
Proof.
  intros t n z Hn. rewrite <- cap_two. pose proof (cap_pos 8 n) as Hc.
  destruct (C36_ring (zeros n) (zeros n)) as (_ & _ & _ & _ & _ & R); auto using wf_zeros; try (unfold zeros; rewrite repeat_length; auto).
  unfold zeros in R; rewrite repeat_length in R. destruct t as [dbg|]; cbn [representable stored].
  - split; [apply Z.mod_pos_bound; lia|]. split; [apply Z.mod_mod; lia|]. intros H. apply Z.mod_small; auto.
  - split; [apply R|]. split; [apply R|]. apply swrap_small.
Qed.
Print Assumptions C160_stored.

(** ** One operation *)

Definition congruent (c a b : Z) : Prop := exists k, a = b + c * k.
#[global] Instance congruent_equiv c : Equivalence (congruent c).
Proof.
  split.
  - intros a. exists 0. ring.
  - intros a b [k ->]. exists (- k). ring.
  - intros a b d [k ->] [l ->]. exists (k + l). ring.
Qed.
#[global] Instance congruent_add c : Proper (congruent c ==> congruent c ==> congruent c) Z.add.
Proof. intros a b [k ->] d e [l ->]. exists (k + l). ring. Qed.
#[global] Instance congruent_sub c : Proper (congruent c ==> congruent c ==> congruent c) Z.sub.
Proof. intros a b [k ->] d e [l ->]. exists (k - l). ring. Qed.
#[global] Instance congruent_mul c : Proper (congruent c ==> congruent c ==> congruent c) Z.mul.
Proof. intros a b [k ->] d e [l ->]. exists (b * l + e * k + c * k * l). ring. Qed.
Lemma congruent_mod c a b : 0 < c -> (congruent c a b <-> a mod c = b mod c).
Proof.
  intros Hc. split.
  - intros [k ->]. rewrite Z.mul_comm. apply Z.mod_add. lia.
  - intros E. exists (a / c - b / c). pose proof (Z.div_mod a c ltac:(lia)). pose proof (Z.div_mod b c ltac:(lia)). lia.
Qed.

Section Ops.
Context (t : element) (n : nat) (Hn : (0 < n)%nat).
Notation "a == b" := (congruent (cap 8 n) a b) (at level 70).
Notation num := (number t).

Definition yields (z : Z) (r : out (list Z)) : Prop :=
  may_panic t /\ r = Pan \/ exists x, r = Ret x /\ element_of n x /\ num x == z.

Lemma number_range x : element_of n x -> representable t n (num x).
Proof.
  intros [W L]. destruct t as [dbg|]; cbn [representable number].
  - pose proof (val_bound 8 x W). rewrite L in *. auto.
  - unfold sval. rewrite L. pose proof (val_bound 8 x W) as B. rewrite L in B. pose proof (cap_pos 8 n).
    destruct (Z.ltb_spec (2 * val 8 x) (cap 8 n)); lia.
Qed.

Lemma stored_congr z z' : z == z' -> stored t n z = stored t n z'.
Proof. intros E. apply congruent_mod in E; [|apply cap_pos]. destruct t; cbn [stored]; [exact E|apply swrap_congr; exact E]. Qed.

Lemma holds_iff z x : element_of n x -> (num x == z <-> num x = stored t n z).
Proof.
  intros O. pose proof (number_range x O) as R. destruct (C160_stored t n z Hn) as (_ & M & _).
  destruct (C160_stored t n (num x) Hn) as (_ & _ & I). split; intros H.
  - rewrite <- (I R). apply stored_congr. auto.
  - apply congruent_mod; [apply cap_pos|]. rewrite H, cap_two. exact M.
Qed.

Lemma yields_gives z r : yields z r <-> gives t n z r.
Proof.
  unfold yields, gives, holds. split; (intros [H|(x & E & O & V)]; [left; auto|right; exists x; split; auto]).
  - split; auto. apply holds_iff; auto.
  - split; auto. apply holds_iff; auto.
Qed.

Lemma ops_yield x y : element_of n x -> element_of n y ->
  yields (num x + num y) (bq_add t x y) /\ yields (num x - num y) (bq_sub t x y) /\ yields (num x * num y) (bq_mul t x y).
Proof.
  intros [Wx Lx] [Wy Ly]. pose proof (cap_pos 8 n) as Hc. unfold yields, may_panic, bq_add, bq_sub, bq_mul. destruct t as [dbg|]; cbn [number].
  - assert (forall r z, (dbg = false -> exists c, r = Ok c) -> (r <> Timeout) ->
      (forall c, r = Ok c -> wf 8 c /\ length c = n /\ val 8 c = z mod cap 8 n) ->
      Unsigned dbg = Unsigned true /\ of_res r = Pan \/ exists c, of_res r = Ret c /\ element_of n c /\ val 8 c == z) as K.
    { intros r z H0 HT H. destruct r as [c| |]; [right|left|congruence].
      - exists c. destruct (H c eq_refl) as (W & L & V). split; auto. split; [split; auto|]. apply congruent_mod; auto. rewrite V. apply Z.mod_mod. lia.
      - destruct dbg; auto. destruct (H0 eq_refl) as [c E]. discriminate. }
    assert (forall f, (f = UExprModel.Plus \/ f = UExprModel.Diff \/ f = UExprModel.Times) ->
      let e := f (UExprModel.Const x) (UExprModel.Const y) in
      (dbg = false -> exists c, UExprModel.ueval dbg [] e = Ok c) /\
      (forall c, UExprModel.ueval dbg [] e = Ok c -> wf 8 c /\ length c = n /\ val 8 c = integer (val 8) (cap 8 n - 1) [] e mod cap 8 n)) as U.
    { intros f Hf e. assert (typed n [] e /\ mentions is_negate e = false) as [T M].
      { destruct Hf as [->|[->| ->]]; split; cbn; auto. }
      split; [intros ->; apply (ueval_total n [] e T M)|intros c; apply (ueval_congruent n [] dbg e T c)]. }
    split; [|split]; apply K.
    + apply (U UExprModel.Plus). auto.
    + unfold u_add, unwrap. destruct dbg; [destruct (u_checked_add x y)|]; discriminate.
    + apply (U UExprModel.Plus). auto.
    + apply (U UExprModel.Diff). auto.
    + unfold u_sub, unwrap. destruct dbg; [destruct (u_checked_sub x y)|]; discriminate.
    + apply (U UExprModel.Diff). auto.
    + apply (U UExprModel.Times). auto.
    + unfold u_mul, unwrap. destruct dbg; [destruct (elem_mul_checked 8 x y)|]; discriminate.
    + apply (U UExprModel.Times). auto.
  - destruct (C36_ring x y Wx Wy ltac:(congruence) ltac:(lia)) as (E1 & E2 & E3 & _ & F & R). rewrite Lx in *.
    split; [|split]; right; eexists; (split; [reflexivity|]); (split; [apply F; cbn; auto|]); apply congruent_mod; auto; rewrite ?E1, ?E2, ?E3; apply R.
Qed.

Lemma add_yields x y : element_of n x -> element_of n y -> yields (num x + num y) (bq_add t x y).
Proof. apply ops_yield. Qed.
Lemma sub_yields x y : element_of n x -> element_of n y -> yields (num x - num y) (bq_sub t x y).
Proof. apply ops_yield. Qed.
Lemma mul_yields x y : element_of n x -> element_of n y -> yields (num x * num y) (bq_mul t x y).
Proof. apply ops_yield. Qed.

Lemma zip_fold_yields : forall a b s z, Forall (element_of n) a -> Forall (element_of n) b -> element_of n s -> num s == z ->
  yields (z + zdot (map num a) (map num b)) (zip_fold (bq_add t) (bq_mul t) a b s).
Proof.
  induction a as [|x a IH]; intros b s z Fa Fb Os V.
  - cbn. right. exists s. rewrite Z.add_0_r. auto.
  - destruct b as [|y b]; [cbn; right; exists s; rewrite Z.add_0_r; auto|].
    inversion Fa; inversion Fb; subst. cbn [zip_fold map zdot].
    destruct (mul_yields x y) as [[HP ->]|(p & -> & Op & Vp)]; auto; [left; auto|]. cbn [obind].
    destruct (add_yields s p) as [[HP ->]|(q & -> & Oq & Vq)]; auto; [left; auto|]. cbn [obind].
    rewrite Z.add_assoc. apply (IH b q); auto. rewrite Vq, Vp, V. reflexivity.
Qed.

(** In every build, if all numbers are natural and the result fits. *)
Lemma zip_fold_fits dbg : t = Unsigned dbg -> forall a b s, Forall (element_of n) a -> Forall (element_of n) b -> element_of n s ->
  val 8 s + zdot (map (val 8) a) (map (val 8) b) < cap 8 n ->
  exists x, zip_fold (bq_add t) (bq_mul t) a b s = Ret x /\ element_of n x /\ val 8 x = val 8 s + zdot (map (val 8) a) (map (val 8) b).
Proof.
  intros Ht. assert (forall a b, Forall (element_of n) a -> Forall (element_of n) b -> 0 <= zdot (map (val 8) a) (map (val 8) b)) as Pos.
  { induction a as [|x a IH]; intros [|y b] Fa Fb; cbn [zdot map]; try lia. inversion Fa as [|? ? [Wx _]]; inversion Fb as [|? ? [Wy _]]; subst.
    pose proof (val_nonneg 8 x Wx). pose proof (val_nonneg 8 y Wy). specialize (IH b ltac:(auto) ltac:(auto)). nia. }
  induction a as [|x a IH]; intros b s Fa Fb Os H.
  - cbn in *. exists s. rewrite Z.add_0_r. auto.
  - destruct b as [|y b]; [cbn in *; exists s; rewrite Z.add_0_r; auto|].
    inversion Fa as [|? ? [Wx Lx] Fa']; inversion Fb as [|? ? [Wy Ly] Fb']; subst. cbn [zip_fold map zdot] in *. destruct Os as [Ws Ls].
    pose proof (Pos a b Fa' Fb'). pose proof (val_nonneg 8 x Wx). pose proof (val_nonneg 8 y Wy). pose proof (val_nonneg 8 s Ws).
    pose proof (Z.mul_nonneg_nonneg (val 8 x) (val 8 y) ltac:(lia) ltac:(lia)).
    destruct (C27_mul x y Wx Wy ltac:(congruence)) as (_ & [p (E & _ & _ & Wp & Lp & Vp)]); [lia|].
    unfold bq_mul at 1. rewrite E. cbn [of_res obind].
    destruct (C26_add dbg s p Ws Wp ltac:(congruence)) as ([q (E' & _ & _ & Wq & Lq & Vq)] & _); [rewrite Ls, Vp; lia|].
    unfold bq_add at 1. rewrite E'. cbn [of_res obind].
    destruct (IH b q) as (r & E2 & Or & Vr); auto; [split; congruence|rewrite Vq, Vp; lia|]. exists r. split; auto. split; auto. rewrite Vr, Vq, Vp. ring.
Qed.
End Ops.

(** ** Element by element *)

Definition byte_ops (t : element) : list ((list Z -> list Z -> out (list Z)) * (Z -> Z -> Z)) :=
  [(bq_add t, Z.add); (bq_sub t, Z.sub); (bq_mul t, Z.mul)].

Lemma ops_give t n op zop x y : (0 < n)%nat -> In (op, zop) (byte_ops t) -> element_of n x -> element_of n y ->
  gives t n (zop (number t x) (number t y)) (op x y).
Proof.
  intros Hn I Ox Oy. apply yields_gives; auto. destruct (ops_yield t n Hn x y Ox Oy) as (A & B & C).
  destruct I as [E|[E|[E|[]]]]; injection E as <- <-; auto.
Qed.

Definition elementwise (t : element) (n : nat) (zop : Z -> Z -> Z) (a b : list (list Z)) (r : out (list (list Z))) : Prop :=
  may_panic t /\ r = Pan \/ exists c, r = Ret c /\ Forall3 (fun x y z => holds t n (zop (number t x) (number t y)) z) a b c.

Theorem C160_elementwise : forall t n op zop m a b s, (0 < n)%nat -> In (op, zop) (byte_ops t) ->
  length a = m -> length b = m -> Forall (element_of n) a -> Forall (element_of n) b -> element_of n s ->
  elementwise t n zop a b (yv_op op m a b) /\ elementwise t n zop a b (yv_op_ref op m a b) /\ elementwise t n zop a b (yv_assign op a b) /\
  elementwise t n zop a (repeat s m) (yv_scalar op a s) /\ elementwise t n zop a (repeat s m) (yv_assign_scalar op a s).
Proof.
  intros t n op zop m a b s Hn I La Lb Fa Fb Os. pose proof (fun x y => ops_give t n op zop x y Hn I) as X.
  assert (elementwise t n zop a (repeat s m) (array_map (fun x => op x s) a)) as K.
  { destruct (array_map_cases (may_panic t) (fun x => op x s) (element_of n) (fun x z => holds t n (zop (number t x) (number t s)) z)) with (a := a)
      as [H|(c & H & G)]; auto; [intros x Ox; apply X; auto|left; auto|right; exists c]. split; auto. rewrite <- La.
    clear - G. induction G; cbn; constructor; auto. }
  assert (forall x y, element_of n x -> element_of n y -> may_panic t /\ op x y = Pan \/
    exists z, op x y = Ret z /\ holds t n (zop (number t x) (number t y)) z) as Y by (intros x y Ox Oy; apply X; auto).
  assert (elementwise t n zop a b (yv_assign op a b)) as A.
  { destruct (each_pair_cases (may_panic t) op _ _ _ Y a b) as [H|H]; auto; [congruence|left; exact H|right; exact H]. }
  destruct (vec_op_cases (may_panic t) op _ _ _ Y m a b La Lb Fa Fb) as [(HP & H & H')|(c & H & H' & G)].
  - repeat split; auto; left; auto.
  - repeat split; auto; right; exists c; auto.
Qed.
Print Assumptions C160_elementwise.

Theorem C160_matrix_elementwise : forall t n op zop row col a b, (0 < n)%nat -> In (op, zop) (byte_ops t) ->
  shape row col a -> shape row col b -> Forall (Forall (element_of n)) a -> Forall (Forall (element_of n)) b ->
  may_panic t /\ ym_op op row col a b = Pan \/
  exists c, ym_op op row col a b = Ret c /\ Forall3 (Forall3 (fun x y z => holds t n (zop (number t x) (number t y)) z)) a b c.
Proof.
  intros t n op zop row col a b Hn I [La Sa] [Lb Sb] Fa Fb. pose proof (fun x y => ops_give t n op zop x y Hn I) as X.
  assert (forall m, Forall (fun r : list (list Z) => length r = col) m -> Forall (Forall (element_of n)) m ->
    Forall (fun r => length r = col /\ Forall (element_of n) r) m) as K.
  { intros m H1 H2. rewrite Forall_forall in *. auto. }
  change (ym_op op row col a b) with (vec_op (vec_op op col) row a b).
  destruct (vec_op_cases (may_panic t) (vec_op op col) (fun r => length r = col /\ Forall (element_of n) r) (fun r => length r = col /\ Forall (element_of n) r)
    (Forall3 (fun x y z => holds t n (zop (number t x) (number t y)) z))) with (n := row) (a := a) (b := b)
    as [[HP [H _]]|(c & H & _ & G)]; auto; [|right; exists c; auto].
  intros x y [Lx Fx] [Ly Fy].
  destruct (vec_op_cases (may_panic t) op (element_of n) (element_of n) (fun x y z => holds t n (zop (number t x) (number t y)) z)) with (n := col) (a := x) (b := y)
    as [[HP [H _]]|(c & H & _ & G)]; auto. right. exists c. auto.
Qed.
Print Assumptions C160_matrix_elementwise.

(** ** Matrix products *)

(** Each entry of the product is the dot product of a row and a column. *)
Theorem C160_matrix_product : forall t n row col col2 a b, (0 < n)%nat -> (0 < col)%nat -> shape row col a -> shape col col2 b ->
  Forall (Forall (element_of n)) a -> Forall (Forall (element_of n)) b ->
  may_panic t /\ ym_mul t row col col2 a b = Pan \/
  exists p, ym_mul t row col col2 a b = Ret p /\ shape row col2 p /\
    forall i j v, entry p i j = Some v -> holds t n (zdot (map (number t) (row_of a i)) (map (number t) (column_of [] b j))) v.
Proof.
  intros t n row col col2 a b Hn Hc Sa Sb Fa Fb. apply (matf_cases (may_panic t) []); auto.
  intros i j Hi Hj Lr Lc. pose proof (row_all _ a i Fa) as Or. pose proof (column_all [] _ col col2 b j Sb Hj Fb) as Oc.
  destruct (row_of a i) as [|x r]; [cbn in Lr; lia|]. destruct (column_of [] b j) as [|y c]; [cbn in Lc; lia|]. cbn [nth skipn map zdot].
  inversion Or; inversion Oc; subst. destruct (mul_yields t n Hn x y) as [[HP ->]|(v & -> & Ov & Vv)]; auto. cbn [obind].
  apply (yields_gives t n Hn). apply zip_fold_yields; auto.
Qed.
Print Assumptions C160_matrix_product.

(** Unsigned products that fit are exact, with overflow checks too. *)
Theorem C160_matrix_product_fits : forall dbg n row col col2 a b, (0 < n)%nat -> (0 < col)%nat -> shape row col a -> shape col col2 b ->
  Forall (Forall (element_of n)) a -> Forall (Forall (element_of n)) b ->
  (forall i j, (i < row)%nat -> (j < col2)%nat -> zdot (map (val 8) (row_of a i)) (map (val 8) (column_of [] b j)) < 2 ^ Z.of_nat (8 * n)) ->
  exists p, ym_mul (Unsigned dbg) row col col2 a b = Ret p /\ shape row col2 p /\
    forall i j v, entry p i j = Some v -> element_of n v /\ val 8 v = zdot (map (val 8) (row_of a i)) (map (val 8) (column_of [] b j)).
Proof.
  intros dbg n row col col2 a b Hn Hc Sa Sb Fa Fb H. unfold ym_mul.
  destruct (matf_cases False [] (bq_add (Unsigned dbg)) (bq_mul (Unsigned dbg))
    (fun i j v => element_of n v /\ val 8 v = zdot (map (val 8) (row_of a i)) (map (val 8) (column_of [] b j))) row col col2 a b) as [[[] _]|?]; auto.
  intros i j Hi Hj Lr Lc. pose proof (row_all _ a i Fa) as Or. pose proof (column_all [] _ col col2 b j Sb Hj Fb) as Oc. specialize (H i j Hi Hj).
  destruct (row_of a i) as [|x r]; [cbn in Lr; lia|]. destruct (column_of [] b j) as [|y c]; [cbn in Lc; lia|]. cbn [nth skipn map zdot] in *.
  inversion Or as [|? ? [Wx Lx] Or']; inversion Oc as [|? ? [Wy Ly] Oc']; subst. right.
  assert (forall a b, Forall (element_of (length x)) a -> Forall (element_of (length x)) b -> 0 <= zdot (map (val 8) a) (map (val 8) b)) as Pos.
  { clear. induction a as [|u a IH]; intros [|w b] Fa Fb; cbn [zdot map]; try lia. inversion Fa as [|? ? [Wx _]]; inversion Fb as [|? ? [Wy _]]; subst.
    pose proof (val_nonneg 8 u Wx). pose proof (val_nonneg 8 w Wy). specialize (IH b ltac:(auto) ltac:(auto)). nia. }
  pose proof (Pos r c Or' Oc'). rewrite <- cap_two in H.
  destruct (C27_mul x y Wx Wy ltac:(congruence)) as (_ & [p (E & _ & _ & Wp & Lp & Vp)]); [lia|].
  unfold bq_mul at 1. rewrite E. cbn [of_res obind].
  destruct (zip_fold_fits (Unsigned dbg) (length x) Hn dbg eq_refl r c p) as (z & Ez & Oz & Vz); auto; [split; auto|rewrite Vp; lia|].
  exists z. split; auto. split; auto. rewrite Vz, Vp. reflexivity.
Qed.
Print Assumptions C160_matrix_product_fits.

(** ** Cross products and complex numbers *)

Ltac one L := let v := fresh "v" in let O := fresh "O" in let V := fresh "V" in
  destruct L as [[? ->]|(v & -> & O & V)]; try assumption; try (left; split; [assumption|reflexivity]); cbn [obind].
Ltac fin := split; [assumption|apply holds_iff; [assumption..|]].

Theorem C160_cross : forall t n ax ay az bx by_ bz, (0 < n)%nat -> Forall (element_of n) [ax; ay; az; bx; by_; bz] ->
  let v := number t in
  may_panic t /\ yv_cross t (ax, ay, az) (bx, by_, bz) = Pan \/
  exists x y z, yv_cross t (ax, ay, az) (bx, by_, bz) = Ret (x, y, z) /\
    holds t n (v ay * v bz - v az * v by_) x /\ holds t n (v az * v bx - v ax * v bz) y /\ holds t n (v ax * v by_ - v ay * v bx) z.
Proof.
  intros t n ax ay az bx by_ bz Hn F v. repeat match goal with H : Forall _ (_ :: _) |- _ => inversion H; clear H; subst end.
  unfold yv_cross, crossf.
  one (mul_yields t n Hn ay bz). one (mul_yields t n Hn az by_). one (mul_yields t n Hn az bx). one (mul_yields t n Hn ax bz).
  one (mul_yields t n Hn ax by_). one (mul_yields t n Hn ay bx).
  one (sub_yields t n Hn v0 v1). one (sub_yields t n Hn v2 v3). one (sub_yields t n Hn v4 v5).
  right. exists v6, v7, v8. split; auto. unfold v. repeat split; try apply O5; try apply O6; try apply O7.
  - apply holds_iff; auto. rewrite V5, V, V0. reflexivity.
  - apply holds_iff; auto. rewrite V6, V1, V2. reflexivity.
  - apply holds_iff; auto. rewrite V7, V3, V4. reflexivity.
Qed.
Print Assumptions C160_cross.

Definition gives_complex (t : element) (n : nat) (re im : Z) (r : out (complex (list Z))) : Prop :=
  may_panic t /\ r = Pan \/ exists c, r = Ret c /\ holds t n re (real c) /\ holds t n im (imag c).

Theorem C160_complex : forall t n ar ai br bi s, (0 < n)%nat -> Forall (element_of n) [ar; ai; br; bi; s] -> let v := number t in
  gives_complex t n (v ar + v br) (v ai + v bi) (yc_add t (Cx ar ai) (Cx br bi)) /\
  gives_complex t n (v ar - v br) (v ai - v bi) (yc_sub t (Cx ar ai) (Cx br bi)) /\
  gives_complex t n (v ar * v br - v ai * v bi) (v ar * v bi + v ai * v br) (yc_mul t (Cx ar ai) (Cx br bi)) /\
  gives_complex t n (v ar + v s) (v ai) (yc_add_scalar t (Cx ar ai) s) /\
  gives_complex t n (v ar - v s) (v ai) (yc_sub_scalar t (Cx ar ai) s) /\
  gives_complex t n (v ar * v s) (v ai * v s) (yc_mul_scalar t (Cx ar ai) s).
Proof.
  intros t n ar ai br bi s Hn F v. repeat match goal with H : Forall _ (_ :: _) |- _ => inversion H; clear H; subst end.
  unfold gives_complex, v, yc_add, yc_sub, yc_mul, yc_add_scalar, yc_sub_scalar, yc_mul_scalar, cf_add, cf_sub, cf_mul, cf_add_scalar, cf_sub_scalar, cf_mul_scalar.
  cbn [real imag]. repeat apply conj.
  - one (add_yields t n Hn ar br). one (add_yields t n Hn ai bi). right. eexists. split; [reflexivity|]. cbn [real imag]. split; fin; auto.
  - one (sub_yields t n Hn ar br). one (sub_yields t n Hn ai bi). right. eexists. split; [reflexivity|]. cbn [real imag]. split; fin; auto.
  - one (mul_yields t n Hn ar br). one (mul_yields t n Hn ai bi). one (sub_yields t n Hn v0 v1).
    one (mul_yields t n Hn ar bi). one (mul_yields t n Hn br ai). one (add_yields t n Hn v3 v4).
    right. eexists. split; [reflexivity|]. cbn [real imag]. split; fin.
    + rewrite V1, V, V0. reflexivity.
    + rewrite V4, V2, V3. rewrite (Z.mul_comm (number t br)). reflexivity.
  - one (add_yields t n Hn ar s). right. eexists. split; [reflexivity|]. cbn [real imag]. split; fin; auto. reflexivity.
  - one (sub_yields t n Hn ar s). right. eexists. split; [reflexivity|]. cbn [real imag]. split; fin; auto. reflexivity.
  - one (mul_yields t n Hn ar s). one (mul_yields t n Hn ai s). right. eexists. split; [reflexivity|]. cbn [real imag]. split; fin; auto.
Qed.
Print Assumptions C160_complex.

(** ** When [U<N>] panics *)

(** Every intermediate value is in range: no panic, and the exact result, in both builds. *)
Lemma op_in dbg n op zop x y : (0 < n)%nat -> In (op, zop) (byte_ops (Unsigned dbg)) -> element_of n x -> element_of n y ->
  0 <= zop (val 8 x) (val 8 y) < 2 ^ Z.of_nat (8 * n) -> exists z, op x y = Ret z /\ element_of n z /\ val 8 z = zop (val 8 x) (val 8 y).
Proof.
  rewrite <- cap_two. intros Hn [E|[E|[E|[]]]] [Wx Lx] [Wy Ly] H; injection E as <- <-; subst n.
  - destruct (C26_add dbg x y Wx Wy Ly) as (K & _). destruct (K (proj2 H)) as (c & E & _ & _ & W & L & V). exists c. unfold bq_add. rewrite E. repeat split; auto.
  - destruct (C26_sub dbg x y Wx Wy Ly) as (K & _). destruct (K (proj1 H)) as (c & E & _ & _ & W & L & V). exists c. unfold bq_sub. rewrite E. repeat split; auto.
  - destruct (C27_mul x y Wx Wy Ly) as (_ & K). destruct (K (proj2 H)) as (c & E & _ & _ & W & L & V). exists c. unfold bq_mul. rewrite E. repeat split; auto.
Qed.
Lemma op_out n op zop x y : (0 < n)%nat -> In (op, zop) [(bq_add (Unsigned true), Z.add); (bq_sub (Unsigned true), Z.sub)] ->
  element_of n x -> element_of n y -> ~ 0 <= zop (val 8 x) (val 8 y) < 2 ^ Z.of_nat (8 * n) -> op x y = Pan.
Proof.
  rewrite <- cap_two. intros Hn [E|[E|[]]] [Wx Lx] [Wy Ly] H; injection E as <- <-; subst n; pose proof (val_bound 8 x Wx); pose proof (val_bound 8 y Wy); rewrite Ly in *.
  - destruct (C26_add true x y Wx Wy Ly) as (_ & K & _). destruct (K ltac:(lia)) as (E & _). unfold bq_add. rewrite E. reflexivity.
  - destruct (C26_sub true x y Wx Wy Ly) as (_ & K & _). destruct (K ltac:(lia)) as (E & _). unfold bq_sub. rewrite E. reflexivity.
Qed.

Definition in_range (n : nat) (z : Z) : Prop := 0 <= z < 2 ^ Z.of_nat (8 * n).

Theorem C160_vector_fits : forall dbg n op zop m a b, (0 < n)%nat -> In (op, zop) (byte_ops (Unsigned dbg)) ->
  length a = m -> length b = m -> Forall (element_of n) a -> Forall (element_of n) b ->
  Forall2 (fun x y => in_range n (zop (val 8 x) (val 8 y))) a b ->
  exists c, yv_op op m a b = Ret c /\ yv_op_ref op m a b = Ret c /\ yv_assign op a b = Ret c /\
    Forall3 (fun x y z => element_of n z /\ val 8 z = zop (val 8 x) (val 8 y)) a b c.
Proof.
  intros dbg n op zop m a b Hn I La Lb Fa Fb H.
  assert (exists c, Forall3 (fun x y z => op x y = Ret z /\ element_of n z /\ val 8 z = zop (val 8 x) (val 8 y)) a b c) as [c G].
  { clear La Lb. induction H as [|x y a b H1 H IH]; [exists []; constructor|]. inversion Fa; inversion Fb; subst. destruct IH as [c G]; auto.
    destruct (op_in dbg n op zop x y) as (z & E & K); auto. exists (z :: c). constructor; auto. }
  assert (Forall3 (fun x y z => op x y = Ret z) a b c) as G1 by (clear - G; induction G; constructor; tauto).
  assert (Forall3 (fun x y z => element_of n z /\ val 8 z = zop (val 8 x) (val 8 y)) a b c) as G2 by (clear - G; induction G; constructor; tauto).
  exists c. split; [apply vec_op_ret; auto|]. split; [apply vec_op_ref_ret; auto|]. split; auto. apply each_pair_ret. auto.
Qed.
Print Assumptions C160_vector_fits.

(** [+] and [-] of vectors with overflow checks panic exactly if some element is out of range. *)
Theorem C160_vector_overflow : forall n op zop m a b, (0 < n)%nat -> In (op, zop) [(bq_add (Unsigned true), Z.add); (bq_sub (Unsigned true), Z.sub)] ->
  length a = m -> length b = m -> Forall (element_of n) a -> Forall (element_of n) b ->
  ~ Forall2 (fun x y => in_range n (zop (val 8 x) (val 8 y))) a b ->
  yv_op op m a b = Pan /\ yv_op_ref op m a b = Pan /\ yv_assign op a b = Pan.
Proof.
  intros n op zop m a b Hn I La Lb Fa Fb H.
  assert (In (op, zop) (byte_ops (Unsigned true))) as I' by (destruct I as [E|[E|[]]]; rewrite <- E; cbn; auto).
  assert (forall x y, element_of n x -> element_of n y -> True /\ op x y = Pan \/ exists z, op x y = Ret z /\ in_range n (zop (val 8 x) (val 8 y))) as Y.
  { intros x y Ox Oy. unfold in_range. destruct (Z_le_dec 0 (zop (val 8 x) (val 8 y))); [destruct (Z_lt_dec (zop (val 8 x) (val 8 y)) (2 ^ Z.of_nat (8 * n)))|].
    - right. destruct (op_in true n op zop x y) as (z & E & _); auto. exists z. auto.
    - left. split; auto. apply (op_out n op zop); auto. tauto.
    - left. split; auto. apply (op_out n op zop); auto. tauto. }
  assert (forall c, ~ Forall3 (fun x y (_ : list Z) => in_range n (zop (val 8 x) (val 8 y))) a b c) as N.
  { intros c G. apply H. clear - G. induction G; constructor; auto. }
  destruct (vec_op_cases True op _ _ _ Y m a b La Lb Fa Fb) as [(_ & H1 & H2)|(c & _ & _ & G)]; [|elim (N c G)].
  destruct (each_pair_cases True op _ _ _ Y a b) as [(_ & H3)|(c & _ & G)]; auto; [congruence|elim (N c G)].
Qed.
Print Assumptions C160_vector_overflow.

(** Cross and complex products: no panic if all the intermediate values are in range, and exact results. *)
Theorem C160_products_fit : forall dbg n ax ay az bx by_ bz, (0 < n)%nat -> Forall (element_of n) [ax; ay; az; bx; by_; bz] ->
  let v := val 8 in let t := Unsigned dbg in
  (Forall (in_range n) [v ay * v bz; v az * v by_; v az * v bx; v ax * v bz; v ax * v by_; v ay * v bx;
      v ay * v bz - v az * v by_; v az * v bx - v ax * v bz; v ax * v by_ - v ay * v bx] ->
    exists x y z, yv_cross t (ax, ay, az) (bx, by_, bz) = Ret (x, y, z) /\
      v x = v ay * v bz - v az * v by_ /\ v y = v az * v bx - v ax * v bz /\ v z = v ax * v by_ - v ay * v bx) /\
  (Forall (in_range n) [v ax * v bx; v ay * v by_; v ax * v bx - v ay * v by_; v ax * v by_; v bx * v ay; v ax * v by_ + v bx * v ay] ->
    exists c, yc_mul t (Cx ax ay) (Cx bx by_) = Ret c /\ v (real c) = v ax * v bx - v ay * v by_ /\ v (imag c) = v ax * v by_ + v ay * v bx).
Proof.
  intros dbg n ax ay az bx by_ bz Hn F v t. unfold v, t. repeat match goal with H : Forall _ (_ :: _) |- _ => inversion H; clear H; subst end.
  split; intros F'; repeat match goal with H : Forall _ (_ :: _) |- _ => inversion H; clear H; subst end; unfold in_range in *.
  - unfold yv_cross, crossf. set (M := bq_mul (Unsigned dbg)). set (S := bq_sub (Unsigned dbg)).
    assert (In (M, Z.mul) (byte_ops (Unsigned dbg)) /\ In (S, Z.sub) (byte_ops (Unsigned dbg))) as [Im Is] by (cbn; auto).
    destruct (op_in dbg n M Z.mul ay bz) as (p1 & -> & O1 & V1); auto. destruct (op_in dbg n M Z.mul az by_) as (p2 & -> & O2 & V2); auto.
    destruct (op_in dbg n M Z.mul az bx) as (p3 & -> & O3 & V3); auto. destruct (op_in dbg n M Z.mul ax bz) as (p4 & -> & O4 & V4); auto.
    destruct (op_in dbg n M Z.mul ax by_) as (p5 & -> & O5 & V5); auto. destruct (op_in dbg n M Z.mul ay bx) as (p6 & -> & O6 & V6); auto. cbn [obind].
    destruct (op_in dbg n S Z.sub p1 p2) as (x & -> & Ox & Vx); auto; [rewrite V1, V2; auto|].
    destruct (op_in dbg n S Z.sub p3 p4) as (y & -> & Oy & Vy); auto; [rewrite V3, V4; auto|].
    destruct (op_in dbg n S Z.sub p5 p6) as (z & -> & Oz & Vz); auto; [rewrite V5, V6; auto|]. cbn [obind].
    exists x, y, z. split; auto. rewrite Vx, Vy, Vz. split; [|split]; congruence.
  - unfold yc_mul, cf_mul. cbn [real imag]. set (M := bq_mul (Unsigned dbg)). set (S := bq_sub (Unsigned dbg)). set (A := bq_add (Unsigned dbg)).
    assert (In (M, Z.mul) (byte_ops (Unsigned dbg)) /\ In (S, Z.sub) (byte_ops (Unsigned dbg)) /\ In (A, Z.add) (byte_ops (Unsigned dbg))) as (Im & Is & Ia) by (cbn; auto).
    destruct (op_in dbg n M Z.mul ax bx) as (p1 & -> & O1 & V1); auto. destruct (op_in dbg n M Z.mul ay by_) as (p2 & -> & O2 & V2); auto. cbn [obind].
    destruct (op_in dbg n S Z.sub p1 p2) as (x & -> & Ox & Vx); auto; [rewrite V1, V2; auto|]. cbn [obind].
    destruct (op_in dbg n M Z.mul ax by_) as (p3 & -> & O3 & V3); auto. destruct (op_in dbg n M Z.mul bx ay) as (p4 & -> & O4 & V4); auto. cbn [obind].
    destruct (op_in dbg n A Z.add p3 p4) as (y & -> & Oy & Vy); auto; [rewrite V3, V4; auto|]. cbn [obind].
    eexists. split; [reflexivity|]. cbn [real imag]. rewrite Vx, Vy, V1, V2, V3, V4, (Z.mul_comm (val 8 bx)). auto.
Qed.
Print Assumptions C160_products_fit.

(** (1, 2, 3) x (4, 5, 6) = (-3, 6, -3) for I<1>, a panic for U<1> with overflow checks and (253, 6, 253) without; (3 - 4i)(2 + 5i) = 26 + 7i;
    products of U<1> matrices that fit and that do not. *)
Example C160_demo :
  yv_cross Signed ([1], [2], [3]) ([4], [5], [6]) = Ret ([253], [6], [253]) /\ sval [253] = -3 /\
  yv_cross (Unsigned true) ([1], [2], [3]) ([4], [5], [6]) = Pan /\ yv_cross (Unsigned false) ([1], [2], [3]) ([4], [5], [6]) = Ret ([253], [6], [253]) /\
  yc_mul Signed (Cx [3; 0] [252; 255]) (Cx [2; 0] [5; 0]) = Ret (Cx [26; 0] [7; 0]) /\ sval [252; 255] = -4 /\
  ym_mul (Unsigned true) 1 2 1 [[[10]; [20]]] [[[3]]; [[4]]] = Ret [[[110]]] /\ zdot [10; 20] [3; 4] = 110 /\
  ym_mul (Unsigned true) 1 2 1 [[[100]; [200]]] [[[1]]; [[1]]] = Pan /\ ym_mul (Unsigned false) 1 2 1 [[[100]; [200]]] [[[1]]; [[1]]] = Ret [[[44]]] /\
  yv_op (bq_sub (Unsigned true)) 2 [[7]; [3]] [[2]; [4]] = Pan /\ yv_op (bq_sub (Unsigned true)) 2 [[7]; [4]] [[2]; [3]] = Ret [[5]; [1]] /\
  yc_mul (Unsigned true) (Cx [3] [4]) (Cx [5] [2]) = Ret (Cx [7] [26]) /\ yv_cross (Unsigned true) ([1], [2], [3]) ([1], [2], [3]) = Ret ([0], [0], [0]) /\
  shape 1 2 [[[10]; [20]]] /\ element_of 1 [20] /\ element_of 2 [252; 255] /\
  yv_op (bq_mul Signed) 2 [[255]; [3]] [[2]; [100]] = Ret [[254]; [44]] /\ stored Signed 1 300 = 44.
Proof. repeat split; try (vm_compute; reflexivity); try (repeat constructor; vm_compute; intuition discriminate). Qed.
