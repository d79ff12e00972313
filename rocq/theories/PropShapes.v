(** C90 continued: what row reduction does to the remaining shapes, a single column and tall dynamic matrices. *)
From Coq Require Import List Bool Arith ZArith Lia.
From Verif Require Import Base StaticIterModel StaticIterSpec StaticIterProofs VectorModel CompoundsSpec VectorProofs MatrixModel GaussProofs
  MatrixProofs GaussFloat PropIndex.
Import ListNotations.

Section Shapes.
Context {T : Type} (one : T) (sub mul : T -> T -> T) (neg : T -> T) (div : T -> T -> out T).
Context (is_zero : T -> bool) (cmp : T -> T -> option comparison).

(** Nothing happens once the row counter has reached the number of rows. *)
Lemma idle {M} (get : M -> nat -> nat -> out T) set swap rows cols (m : M) f : forall len start,
  for_loop (gauss_col sub mul neg div is_zero cmp get set swap cols rows) start len (m, f, rows) = Ret (m, f, rows).
Proof using.
  induction len as [|len IH]; intros start; cbn [for_loop]; auto.
  unfold gauss_col at 1. rewrite Nat.sub_diag. cbn [all_zero obind]. apply IH.
Qed.

(** A static matrix of one column and two or more rows: returned as it is if its first entry is not zero, otherwise a panic. *)
Theorem C90_column_partial row (m : list (list T)) v : shape row 1 m -> 2 <= row -> entry m 0 0 = Some v ->
  static_row_reduce one sub mul neg div is_zero cmp row 1 m = if is_zero v then Pan else Ret m.
Proof using.
  intros Sh H E. unfold static_row_reduce, static_gauss, gauss_elim.
  destruct row as [|[|row]]; [lia|lia|]. cbn [for_loop]. unfold gauss_col at 1. cbn [Nat.sub all_zero].
  rewrite mat_get_entry, E. cbn [obind]. destruct (is_zero v) eqn:Z; cbn [obind].
  - unfold gauss_col at 1. cbn [Nat.sub all_zero]. rewrite (mat_get_out (S (S row)) 1 m 0 1 Sh) by auto. reflexivity.
  - cbn [min_nonzero]. rewrite mat_get_entry, E. cbn [obind]. rewrite Z. cbn [obind Nat.add Nat.eqb].
    rewrite mat_get_entry, E. cbn [obind for_loop Nat.sub].
    match goal with |- obind (obind (obind ?x _) _) _ = _ => assert (x = Ret (m, one, 1)) as -> end.
    { apply (idle mat_get mat_set swap_rows 1 (S (S row)) m one 1 1). }
    cbn [obind]. rewrite (idle mat_get mat_set swap_rows 1). reflexivity.
Qed.

Section Dyn.
Context (dbg : bool) (row col : nat).
Notation get := (fun (d : dyn T) i j => dyn_get dbg d (Z.of_nat i) (Z.of_nat j)).
Notation set := (fun (d : dyn T) i j v => dyn_set dbg d (Z.of_nat i) (Z.of_nat j) v).
Notation swap := (fun (d : dyn T) i j => dyn_swap_rows dbg d (Z.of_nat i) (Z.of_nat j)).

Lemma get_any d i j : dyn_ok row col d -> i * col + j < row * col ->
  exists v, nth_error (data d) (i * col + j) = Some v /\ get d i j = Ret v.
Proof using.
  intros (R & C & L & B & BR) H. destruct (nth_error_lt (data d) (i * col + j)) as (v & E); [lia|]. exists v. split; auto.
  unfold dyn_get, offset. rewrite C, usize_small by lia. cbn [obind]. rewrite usize_small by lia. cbn [obind].
  replace (Z.of_nat i * Z.of_nat col + Z.of_nat j)%Z with (Z.of_nat (i * col + j)) by lia.
  rewrite slice_get_nth. apply vec_get_some. auto.
Qed.
Lemma set_any d i j v : dyn_ok row col d -> i * col + j < row * col ->
  exists d', set d i j v = Ret d' /\ dyn_ok row col d' /\
    forall k, k <> i * col + j -> nth_error (data d') k = nth_error (data d) k.
Proof using.
  intros (R & C & L & B & BR) H. destruct (nth_error_lt (data d) (i * col + j)) as (x & E); [lia|].
  unfold dyn_set, offset. rewrite C, usize_small by lia. cbn [obind]. rewrite usize_small by lia. cbn [obind].
  replace (Z.of_nat i * Z.of_nat col + Z.of_nat j)%Z with (Z.of_nat (i * col + j)) by lia.
  rewrite slice_get_nth, (proj2 (vec_get_some _ _ _) E). cbn [obind]. eexists. split; [reflexivity|]. split.
  - unfold dyn_ok. cbn. rewrite upd_length. auto.
  - intros k Hk. cbn [data]. rewrite Nat2Z.id, nth_upd by lia. rewrite (proj2 (Nat.eqb_neq _ _)) by auto. auto.
Qed.
End Dyn.

(** A dynamic matrix of one column: always returned as it is. *)
Theorem C90_dyn_column_partial dbg row (d : dyn T) : dyn_ok row 1 d ->
  dyn_row_reduce one sub mul neg div is_zero cmp dbg d = Ret d.
Proof using.
  intros O. pose proof O as (R & C & L & B & BR). unfold dyn_row_reduce, dyn_gauss, gauss_elim. rewrite R, C, !Nat2Z.id.
  match goal with |- context [for_loop ?b _ _ _] => set (body := b) end.
  assert (forall len start, start + len <= row -> exists r, for_loop body start len (d, one, 0) = Ret (d, one, r)) as K.
  { induction len as [|len IH]; intros start Hs; cbn [for_loop]; eauto.
    unfold body at 1. unfold gauss_col at 1. change (Z.to_nat (Z.of_nat 1)) with 1. cbn [Nat.sub all_zero].
    destruct (get_any dbg row 1 d 0 start O) as (v & E & G); [lia|]. cbv beta in G. rewrite G. cbn [obind].
    destruct (is_zero v) eqn:Z; cbn [obind]; [apply IH; lia|].
    cbn [min_nonzero]. rewrite G. cbn [obind]. rewrite Z. cbn [obind Nat.add Nat.eqb]. rewrite G. cbn [obind for_loop Nat.sub].
    exists 1. unfold body. apply idle. }
  destruct (K row 0) as (r & E); [lia|]. rewrite E. reflexivity.
Qed.

(** A dynamic matrix with more rows than columns, at least two: it may panic (in the division or the comparison of elements); if it
    returns, the sizes are the same, and the rows from number [col] on are touched only up to position [row - col] of the buffer
    behind the leading square: a window of [row] entries is taken from each of the first [col] rows, across their ends. *)
Theorem C90_dyn_tall_partial dbg row col (d : dyn T) : dyn_ok row col d -> 1 <= col < row -> (forall x t, div x t <> UB) ->
  dyn_row_reduce one sub mul neg div is_zero cmp dbg d <> UB /\
  forall d', dyn_row_reduce one sub mul neg div is_zero cmp dbg d = Ret d' ->
    dyn_ok row col d' /\ forall k, col * (col - 1) + row <= k -> nth_error (data d') k = nth_error (data d) k.
Proof using.
  intros O H DU. pose proof O as (R & C & L & B & BR). unfold dyn_row_reduce, dyn_gauss, gauss_elim. rewrite R, C, !Nat2Z.id.
  set (W := col * (col - 1) + row).
  assert (forall i j, i < col -> j < row -> i * col + j < W /\ i * col + j < row * col) as Win by (intros; unfold W; nia).
  set (P := fun d' : dyn T => dyn_ok row col d' /\ forall k, W <= k -> nth_error (data d') k = nth_error (data d) k).
  assert (P d) as P0 by (split; auto).
  set (good := fun o : out (dyn T) => o = Pan \/ exists d', o = Ret d' /\ P d').
  assert (forall (f : dyn T -> nat -> out (dyn T)) len start d0, (forall d1 k, start <= k < start + len -> P d1 -> good (f d1 k)) -> P d0 ->
            good (for_loop f start len d0)) as Loop.
  { intros f. induction len as [|len IH]; intros start d0 Hf H0; cbn [for_loop]; [right; eauto|].
    destruct (Hf d0 start ltac:(lia) H0) as [E|(d1 & E & P1)]; rewrite E; cbn [obind]; [left; auto|].
    apply IH; auto. intros. apply Hf; auto. lia. }
  match goal with |- context [for_loop ?b _ _ _] => set (body := b) end.
  assert (forall d1 f r c, P d1 -> r <= col -> c < row ->
            body (d1, f, r) c = Pan \/ exists d2 f2 r2, body (d1, f, r) c = Ret (d2, f2, r2) /\ P d2 /\ r2 <= col) as Step.
  { intros d1 f r c P1 Hr Hc. unfold body, gauss_col.
    assert (forall len start, start + len <= col -> exists z, all_zero is_zero (fun d i j => dyn_get dbg d (Z.of_nat i) (Z.of_nat j)) d1 c start len = Ret z /\ (len = 0 -> z = true)) as AZ.
    { induction len as [|len IH]; intros start Hs; cbn [all_zero]; eauto.
      destruct (get_any dbg row col d1 start c (proj1 P1) (proj2 (Win start c ltac:(lia) Hc))) as (v & _ & G). cbv beta in G. rewrite G. cbn [obind].
      destruct (is_zero v); [destruct (IH (S start)) as (z & E & _); [lia|]; exists z; split; auto; discriminate|exists false; split; auto; discriminate]. }
    destruct (AZ (col - r) r) as (z & E & Z0); [lia|]. rewrite E. cbn [obind]. destruct z; [right; eauto 10|].
    assert (r < col) as Hr2 by (destruct (Nat.eq_dec r col); [specialize (Z0 ltac:(lia)); discriminate|lia]).
    assert (forall len start off best, start + len <= col -> off + len <= col - r -> (forall o v, best = Some (o, v) -> o + r < col) ->
       let q := min_nonzero is_zero cmp (fun d i j => dyn_get dbg d (Z.of_nat i) (Z.of_nat j)) d1 c start len off best in
       q = Pan \/ q = Ret None \/ exists o v, q = Ret (Some (o, v)) /\ o + r < col) as MN.
    { induction len as [|len IH]; intros start off best Hs Ho Hb; cbn [min_nonzero].
      - destruct best as [[o v]|]; [right; right; eauto|right; left; auto].
      - destruct (get_any dbg row col d1 start c (proj1 P1) (proj2 (Win start c ltac:(lia) Hc))) as (v & _ & G). cbv beta in G. rewrite G. cbn [obind].
        destruct (is_zero v); [apply IH; auto; lia|].
        destruct best as [[o b]|]; [destruct (cmp b v) as [[]|]|]; cbv zeta; auto; apply IH; try lia; auto; intros ? ? [= <- <-]; lia. }
    specialize (MN (col - r) r 0 None ltac:(lia) ltac:(lia) ltac:(discriminate)). cbv zeta in MN.
    destruct MN as [E1|[E1|(o & v & E1 & Ho)]]; rewrite E1; cbn [obind]; auto.
    assert (forall d2 (f2 : T), P d2 ->
      let q := obind (dyn_get dbg d2 (Z.of_nat r) (Z.of_nat c)) (fun top =>
        obind (for_loop (eliminate sub mul div (fun d i j => dyn_get dbg d (Z.of_nat i) (Z.of_nat j))
          (fun d i j v => dyn_set dbg d (Z.of_nat i) (Z.of_nat j) v) row c r top) (S r) (col - S r) d2) (fun m => Ret (m, f2, S r))) in
      q = Pan \/ exists d2 f2 r2, q = Ret (d2, f2, r2) /\ P d2 /\ r2 <= col) as Fin.
    { intros d2 f2 P2. destruct (get_any dbg row col d2 r c (proj1 P2) (proj2 (Win r c ltac:(lia) Hc))) as (top & _ & G). cbv beta in G.
      cbv zeta. rewrite G. cbn [obind].
      match goal with |- context [for_loop ?f ?s ?n ?x] => destruct (Loop f n s x) as [E2|(d3 & E2 & P3)]; [|exact P2| |]; [|rewrite E2; left; reflexivity|rewrite E2] end.
      - intros d3 k Hk P3. unfold eliminate.
        destruct (get_any dbg row col d3 k c (proj1 P3) (proj2 (Win k c ltac:(lia) Hc))) as (x & _ & Gx). cbv beta in Gx. rewrite Gx. cbn [obind].
        destruct (div x top) as [w| |] eqn:Ed; cbn [obind]; [|left; auto|elim (DU _ _ Ed)].
        apply Loop; auto. intros d4 j Hj P4.
        destruct (get_any dbg row col d4 k j (proj1 P4) (proj2 (Win k j ltac:(lia) ltac:(lia)))) as (x1 & _ & G1). cbv beta in G1. rewrite G1. cbn [obind].
        destruct (get_any dbg row col d4 r j (proj1 P4) (proj2 (Win r j ltac:(lia) ltac:(lia)))) as (x2 & _ & G2). cbv beta in G2. rewrite G2. cbn [obind].
        destruct (Win k j ltac:(lia) ltac:(lia)) as [W1 W2].
        destruct (set_any dbg row col d4 k j (sub x1 (mul x2 w)) (proj1 P4) W2) as (d5 & E5 & O5 & N5). cbv beta in E5. rewrite E5.
        right. exists d5. split; auto. split; auto. intros i Hi. rewrite N5 by lia. apply P4. exact Hi.
      - cbn [obind]. right. exists d3, f2, (S r). split; auto. }
    destruct (Nat.eqb (o + r) r); cbn [obind]; [apply Fin; auto|].
    destruct (dyn_swap_in dbg row col d1 (o + r) r (proj1 P1)) as (d2 & E2 & O2 & N2); [lia|lia|]. rewrite E2. cbn [obind]. apply Fin.
    split; auto. intros k Hk. destruct (Nat.lt_ge_cases k (row * col)) as [Hlt|Hge].
    - assert (k / col < row) as K1 by (apply Nat.div_lt_upper_bound; lia).
      pose proof (Nat.div_mod k col ltac:(lia)) as Dk. pose proof (Nat.mod_upper_bound k col ltac:(lia)) as Mk.
      assert (col <= k / col) as K2 by (apply Nat.div_le_lower_bound; unfold W in Hk; nia).
      specialize (N2 (k / col) (k mod col) K1 Mk). rewrite (proj2 (Nat.eqb_neq (k / col) r)), (proj2 (Nat.eqb_neq (k / col) (o + r))) in N2 by lia.
      rewrite Nat.mul_comm, <- Dk in N2. rewrite N2. apply P1. exact Hk.
    - destruct O2 as (_ & _ & L2 & _). rewrite !(proj2 (nth_error_None _ _)) by lia. reflexivity. }
  assert (forall len start d1 f r, start + len <= row -> P d1 -> r <= col ->
    for_loop body start len (d1, f, r) = Pan \/ exists d2 f2 r2, for_loop body start len (d1, f, r) = Ret (d2, f2, r2) /\ P d2) as All.
  { induction len as [|len IH]; intros start d1 f r Hs P1 Hr; cbn [for_loop]; [right; eauto 10|].
    destruct (Step d1 f r start P1 Hr ltac:(lia)) as [E|(d2 & f2 & r2 & E & P2 & Hr2)]; rewrite E; cbn [obind]; auto. apply IH; auto. lia. }
  destruct (All row 0 d one 0) as [E|(d2 & f2 & r2 & E & P2)]; auto; try lia; rewrite E; cbn [obind fst]; (split; [discriminate|]); intros d' [=].
  subst d'. exact P2.
Qed.
End Shapes.
Print Assumptions C90_column_partial.
Print Assumptions C90_dyn_column_partial.
Print Assumptions C90_dyn_tall_partial.

(** Over the field of two elements: a static column that starts with zero panics, a dynamic one comes back; a tall dynamic matrix
    can come back although it is no echelon form, and panics (in a division by zero) if only the last row starts with a one. *)
Example C90_shapes_demo : f2_reduce 2 1 [[false]; [true]] = Pan /\ f2_reduce 2 1 [[true]; [true]] = Ret [[true]; [true]] /\
  f2_dyn_reduce (Dyn [false; true; true] 3 1) = Ret (Dyn [false; true; true] 3 1) /\
  f2_dyn_reduce (Dyn [false; true; true; false; true; true] 3 2) = Ret (Dyn [true; false; false; true; true; true] 3 2) /\
  f2_dyn_reduce (Dyn [false; false; false; false; true; false] 3 2) = Pan.
Proof. vm_compute. repeat split. Qed.
