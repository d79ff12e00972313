(** C126: swapping rows that do not exist. *)
From Coq Require Import ZArith List Bool Lia Permutation.
From Verif Require Import Base StaticIterModel StaticIterSpec StaticIterProofs VectorModel CompoundsSpec VectorProofs MatrixModel MatrixProofs.
Import ListNotations.

(** Expected: a row out of range is rejected. *)
Definition rejects {T} (dbg : bool) (row : nat) (d : dyn T) (a b : Z) : Prop :=
  (Z.of_nat row <= a \/ Z.of_nat row <= b)%Z -> dyn_swap_rows dbg d a b = Pan.

(** Without overflow checks [swap_rows(0, 2^63 + 1)] exchanges rows 0 and 1 of a 2 x 2 matrix; with or
    without, [swap_rows(7, 7)] is accepted. *)
Theorem C126_rejects_refuted :
  (exists (d : dyn nat) a b, dyn_ok 2 2 d /\ (0 <= a <= usize_max)%Z /\ (0 <= b <= usize_max)%Z /\ (2 <= b)%Z /\ a <> b /\
    exists d', dyn_swap_rows false d a b = Ret d' /\ data d' <> data d) /\
  (forall dbg, exists (d : dyn nat) a, dyn_ok 2 2 d /\ (2 <= a <= usize_max)%Z /\ ~ rejects dbg 2 d a a).
Proof.
  split.
  - exists (Dyn [1; 2; 3; 4] 2 2), 0%Z, (2 ^ 63 + 1)%Z. split; [repeat split; vm_compute; discriminate|].
    split; [vm_compute; split; discriminate|]. split; [vm_compute; split; discriminate|].
    split; [vm_compute; discriminate|]. split; [discriminate|].
    exists (Dyn [3; 4; 1; 2] 2 2). split; [vm_compute; reflexivity|discriminate].
  - intros dbg. exists (Dyn [1; 2; 3; 4] 2 2), 7%Z. split; [repeat split; vm_compute; discriminate|].
    split; [vm_compute; split; discriminate|]. intros H. specialize (H ltac:(lia)). discriminate H.
Qed.

(** With overflow checks, or when the larger row's offset fits in 64 bits, two different rows of a
    matrix with at least one column are rejected unless both exist. *)
Theorem C126_rejects_partial T dbg row col (d : dyn T) a b : dyn_ok row col d -> 0 < col ->
  (0 <= a)%Z -> (0 <= b)%Z -> a <> b ->
  dbg = true \/ (Z.max a b * Z.of_nat col <= usize_max)%Z ->
  rejects dbg row d a b.
Proof.
  intros (R & C & L & B & BR) Hc Ha Hb Hne Hd Hout. unfold dyn_swap_rows.
  rewrite (proj2 (Z.eqb_neq a b) Hne). rewrite C.
  assert (Z.of_nat row <= Z.max a b)%Z as Hm by lia. set (h := Z.max a b) in *.
  assert (usize dbg (h * Z.of_nat col) = Ret (h * Z.of_nat col)%Z \/ usize dbg (h * Z.of_nat col) = Pan) as [E|E].
  { unfold usize. destruct (Z.leb_spec (h * Z.of_nat col) usize_max); auto. destruct Hd as [->|]; auto; lia. }
  2: { rewrite E. reflexivity. }
  rewrite E. cbn [obind].
  destruct (Z.ltb_spec (Z.of_nat (length (data d))) (h * Z.of_nat col)) as [|Hlen]; auto.
  assert (h * Z.of_nat col = Z.of_nat (length (data d)))%Z as Eh by nia.
  assert (0 <= Z.min a b < h)%Z as Hl by lia.
  rewrite !usize_small; [|unfold usize_max in *; nia..]. cbn [obind]. 
  rewrite usize_small by nia. cbn [obind].
  assert (subslice (skipn (Z.to_nat (h * Z.of_nat col)) (data d)) 0 (Z.of_nat col) = Pan) as ->.
  { unfold subslice. rewrite skipn_length. rewrite Eh, Nat2Z.id, Nat.sub_diag.
    replace (0 <=? Z.of_nat col)%Z with true by (symmetry; apply Z.leb_le; lia).
    replace (Z.of_nat col <=? Z.of_nat 0)%Z with false by (symmetry; apply Z.leb_gt; lia). reflexivity. }
  destruct (subslice _ _ _) eqn:Es; auto. unfold subslice in Es. destruct (_ && _); discriminate Es.
Qed.

(** Whatever the arguments and the build: the call panics, or the matrix keeps its shape and its
    elements, possibly in another order. *)
Theorem C126_contained_partial T dbg row col (d : dyn T) a b : dyn_ok row col d -> (0 <= a)%Z -> (0 <= b)%Z ->
  dyn_swap_rows dbg d a b = Pan \/
  exists d', dyn_swap_rows dbg d a b = Ret d' /\ dyn_ok row col d' /\ Permutation (data d) (data d').
Proof.
  intros (R & C & L & B & BR) Ha Hb. unfold dyn_swap_rows.
  destruct (a =? b)%Z; [right; exists d; repeat split; auto|].
  rewrite C. set (h := Z.max a b). set (l := Z.min a b).
  assert (forall v, (0 <= v)%Z -> usize dbg v = Pan \/ exists u, usize dbg v = Ret u /\ (0 <= u)%Z) as U.
  { intros v Hv. unfold usize. destruct (v <=? usize_max)%Z; [eauto|]. destruct dbg; auto.
    right. eexists. split; [reflexivity|]. apply Z.mod_pos_bound. reflexivity. }
  destruct (U (h * Z.of_nat col)%Z) as [->|(p & -> & Hp)]; [lia|auto|]. cbn [obind].
  destruct (Z.ltb_spec (Z.of_nat (length (data d))) p) as [|Hlen]; auto.
  destruct (U (l * Z.of_nat col)%Z) as [->|(s & -> & Hs)]; [lia|auto|]. cbn [obind].
  destruct (U (l + 1)%Z) as [->|(l1 & -> & Hl1)]; [lia|auto|]. cbn [obind].
  destruct (U (l1 * Z.of_nat col)%Z) as [->|(e & -> & He)]; [lia|auto|]. cbn [obind].
  unfold subslice.
  destruct (Z.leb_spec s e) as [Hse|]; [|auto].
  destruct (Z.leb_spec e (Z.of_nat (length (firstn (Z.to_nat p) (data d))))) as [Hel|]; [|auto]. cbn [andb obind].
  destruct (Z.leb_spec 0 (Z.of_nat col)) as [_|]; [|lia].
  destruct (Z.leb_spec (Z.of_nat col) (Z.of_nat (length (skipn (Z.to_nat p) (data d))))) as [Hcl|]; [|auto]. cbn [andb obind].
  set (start := firstn (Z.to_nat p) (data d)) in *. set (end_ := skipn (Z.to_nat p) (data d)) in *.
  change (Z.to_nat 0) with 0. cbn [skipn]. rewrite Z.sub_0_r, Nat2Z.id.
  set (x := firstn (Z.to_nat (e - s)) (skipn (Z.to_nat s) start)). set (y := firstn col end_).
  destruct (Nat.eqb (length x) (length y)); [|auto]. right. eexists. split; [reflexivity|].
  assert (length x = Z.to_nat e - Z.to_nat s) as Lx by (unfold x; rewrite firstn_length, skipn_length; lia).
  assert (length y = col) as Ly by (unfold y; rewrite firstn_length; lia).
  assert (start = firstn (Z.to_nat s) start ++ x ++ skipn (Z.to_nat s + length x) start) as Est.
  { rewrite <- (firstn_skipn (Z.to_nat s) start) at 1. f_equal.
    rewrite <- (firstn_skipn (Z.to_nat (e - s)) (skipn (Z.to_nat s) start)) at 1. fold x. f_equal.
    rewrite Lx. replace (Z.to_nat (e - s)) with (Z.to_nat e - Z.to_nat s) by lia.
    clear -start. generalize (Z.to_nat e - Z.to_nat s) as k. generalize (Z.to_nat s) as n. clearbody start. intros n. revert start.
    induction n as [|n IH]; intros st k; [reflexivity|]. destruct st; [destruct k; reflexivity|]. cbn. apply IH. }
  assert (end_ = y ++ skipn (length y) end_) as Een by (rewrite Ly; unfold y; symmetry; apply firstn_skipn).
  cbn [data]. match goal with |- _ /\ Permutation _ ?n => assert (Permutation (data d) n) as P end.
  { rewrite <- (firstn_skipn (Z.to_nat p) (data d)). fold start end_. rewrite Est at 1. rewrite Een at 1.
    rewrite <- !app_assoc. apply Permutation_app_head.
    set (m := skipn (Z.to_nat s + length x) start). set (t := skipn (length y) end_).
    rewrite (Permutation_app_comm x). rewrite <- !app_assoc.
    rewrite (app_assoc m), (app_assoc y m). rewrite (Permutation_app_comm m y). rewrite <- !app_assoc.
    apply Permutation_app_head, Permutation_app_head. apply Permutation_app_comm. }
  split; auto. unfold dyn_ok. cbn [rows cols data]. rewrite <- (Permutation_length P). auto.
Qed.

Example C126_demo : dyn_swap_rows true (Dyn [1; 2; 3; 4] 2 2) 2 0 = Pan /\ dyn_swap_rows false (Dyn [1; 2; 3; 4] 2 2) 1 9 = Pan.
Proof.
  assert (dyn_ok 2 2 (Dyn [1; 2; 3; 4] 2 2)) as H by (repeat split; vm_compute; discriminate). split.
  - apply (C126_rejects_partial nat true 2 2); auto; try lia; discriminate.
  - apply (C126_rejects_partial nat false 2 2); auto; try lia; try discriminate. right. vm_compute. discriminate.
Qed.

Print Assumptions C126_rejects_refuted.
Print Assumptions C126_rejects_partial.
Print Assumptions C126_contained_partial.
