(** C90 (non-square shapes), C91, C92 (entries), C94: shapes, indexing, row swaps, bivectors. *)
From Coq Require Import List Bool Arith ZArith Lia Ring Ring_theory.
From Verif Require Import Base StaticIterModel StaticIterSpec StaticIterProofs VectorModel CompoundsSpec VectorProofs MatrixModel GaussProofs MatrixProofs.
Import ListNotations.

(** ** C90: row reduction of non-square matrices *)
Section Shapes.
Context {T : Type} (one : T) (sub mul : T -> T -> T) (neg : T -> T) (div : T -> T -> out T).
Context (is_zero : T -> bool) (cmp : T -> T -> option comparison).
Hypothesis div_no_ub : forall x t, div x t <> UB.

Section Pan.
Context {M : Type} (get : M -> nat -> nat -> out T).
Lemma all_zero_pan m col k0 : get m k0 col = Pan -> forall len start,
  (forall k, start <= k < start + len -> get m k col <> UB) -> start <= k0 < start + len ->
  all_zero is_zero get m col start len = Pan \/ all_zero is_zero get m col start len = Ret false.
Proof using.
  intros Hk. induction len as [|len IH]; intros start Hu Hr; [lia|]. cbn [all_zero].
  destruct (Nat.eq_dec start k0) as [->|].
  - rewrite Hk. auto.
  - destruct (get m start col) as [v| |] eqn:E; cbn [obind]; auto.
    + destruct (is_zero v); auto. apply IH; [|lia]. intros k Hk2. apply Hu. lia.
    + elim (Hu start); auto. lia.
Qed.
Lemma min_nonzero_pan m col k0 : get m k0 col = Pan -> forall len start off best,
  (forall k, start <= k < start + len -> get m k col <> UB) -> start <= k0 < start + len ->
  min_nonzero is_zero cmp get m col start len off best = Pan.
Proof using.
  intros Hk. induction len as [|len IH]; intros start off best Hu Hr; [lia|]. cbn [min_nonzero].
  destruct (Nat.eq_dec start k0) as [->|].
  - rewrite Hk. auto.
  - assert (forall off best, min_nonzero is_zero cmp get m col (S start) len off best = Pan) as N.
    { intros. apply IH; [|lia]. intros k Hk2. apply Hu. lia. }
    destruct (get m start col) as [v| |] eqn:E; cbn [obind]; auto.
    + destruct (is_zero v); auto. destruct best as [[o b]|]; auto. destruct (cmp b v) as [[]|]; auto.
    + elim (Hu start); auto. lia.
Qed.
Lemma all_zero_no_ub m col : (forall k, get m k col <> UB) -> forall len start, all_zero is_zero get m col start len <> UB.
Proof using.
  intros Hu. induction len as [|len IH]; intros start; cbn [all_zero]; [discriminate|].
  destruct (get m start col) as [v| |] eqn:E; cbn [obind]; try discriminate; [|elim (Hu _ E)].
  destruct (is_zero v); auto. discriminate.
Qed.
Lemma min_nonzero_no_ub m col : (forall k, get m k col <> UB) -> forall len start off best,
  min_nonzero is_zero cmp get m col start len off best <> UB.
Proof using.
  intros Hu. induction len as [|len IH]; intros start off best; cbn [min_nonzero]; [discriminate|].
  destruct (get m start col) as [v| |] eqn:E; cbn [obind]; try discriminate; [|elim (Hu _ E)].
  destruct (is_zero v); auto. destruct best as [[o b]|]; auto. destruct (cmp b v) as [[]|]; auto. discriminate.
Qed.
Lemma first_column_pan set swap m cols rows k0 : get m k0 0 = Pan -> 0 < cols -> k0 < rows -> (forall k, get m k 0 <> UB) ->
  gauss_elim one sub mul neg div is_zero cmp get set swap cols rows m = Pan.
Proof using.
  intros Hk Hc Hr Hu. unfold gauss_elim. destruct cols as [|cols]; [lia|]. cbn [for_loop]. unfold gauss_col at 1.
  rewrite Nat.sub_0_r. destruct (all_zero_pan m 0 k0 Hk rows 0) as [E|E]; auto; [lia| |]; rewrite E; cbn [obind]; auto.
  rewrite (min_nonzero_pan m 0 k0); auto. lia.
Qed.
End Pan.

(** More columns than rows: always a panic. *)
Theorem C90_wide_panics row col (m : list (list T)) : shape row col m -> 1 <= row < col ->
  static_row_reduce one sub mul neg div is_zero cmp row col m = Pan.
Proof using.
  intros S H. unfold static_row_reduce, static_gauss. rewrite (first_column_pan mat_get mat_set swap_rows m row col row); auto; try lia.
  - apply (mat_get_out row col); auto.
  - intros k. rewrite mat_get_entry. destruct (entry m k 0); discriminate.
Qed.

(** More rows than columns (at least two): always a panic. *)
Theorem C90_tall_panics row col (m : list (list T)) : shape row col m -> 2 <= col < row ->
  static_row_reduce one sub mul neg div is_zero cmp row col m = Pan.
Proof using div_no_ub.
  intros Sh H. unfold static_row_reduce, static_gauss, gauss_elim.
  assert (forall m i j, mat_get m i j <> @UB T) as NU.
  { intros m1 i j. rewrite mat_get_entry. destruct (entry m1 i j); discriminate. }
  rewrite (for_loop_pan _ (fun _ '(m', _, r) => m' = m /\ r = 0) col); auto; try lia.
  - intros c [[m' sign] r] Hc (-> & ->). unfold gauss_col. rewrite Nat.sub_0_r.
    destruct (all_zero is_zero mat_get m c 0 col) as [[]| |] eqn:Ez; cbn [obind]; auto.
    + right. eexists. split; [reflexivity|]. cbn. auto.
    + left. destruct (min_nonzero is_zero cmp mat_get m c 0 col 0 None) as [[[off v]|]| |] eqn:Em; cbn [obind]; auto.
      2: { elim (min_nonzero_no_ub mat_get m c (fun k => NU m k c) _ _ _ _ Em). }
      rewrite Nat.add_0_r.
      assert (forall m1 s, shape row col m1 ->
        obind (mat_get m1 0 c) (fun top => obind (for_loop (eliminate sub mul div mat_get mat_set row c 0 top) 1 (col - 1) m1)
          (fun m => Ret (m, s, 1))) = @Pan (list (list T) * T * nat)) as Fin.
      { intros m1 s S1. destruct (mat_get m1 0 c) as [top| |] eqn:Et; cbn [obind]; auto; [|elim (NU _ _ _ Et)].
        destruct (col - 1) as [|c1] eqn:Ec1; [lia|]. cbn [for_loop].
        assert (eliminate sub mul div mat_get mat_set row c 0 top m1 1 = Pan) as ->; auto.
        unfold eliminate. destruct (mat_get m1 1 c) as [v1| |] eqn:E1; cbn [obind]; auto; [|elim (NU _ _ _ E1)].
        destruct (div v1 top) as [k| |] eqn:Ed; cbn [obind]; auto; [|elim (div_no_ub _ _ Ed)].
        destruct (Nat.lt_ge_cases c col) as [Hlt|Hge].
        2: { rewrite (mat_get_out row col m1 0 c S1) in Et by (right; auto). discriminate. }
        apply (for_loop_pan _ (fun _ m' => shape row col m') col); auto; try lia.
        - intros x m2 Hx S2. destruct (mat_get m2 1 x) as [a| |] eqn:Ea; cbn [obind]; auto; [|elim (NU _ _ _ Ea)].
          destruct (mat_get m2 0 x) as [b| |] eqn:Eb; cbn [obind]; auto; [|elim (NU _ _ _ Eb)].
          destruct (Nat.lt_ge_cases x col).
          + destruct (mat_set_ok row col m2 1 x (sub a (mul b k)) S2) as (m3 & E3 & S3 & _); [lia|auto|]. eauto.
          + rewrite (mat_get_out row col m2 1 x S2) in Ea by (right; auto). discriminate.
        - intros m2 S2. rewrite (mat_get_out row col m2 1 col S2) by auto. auto. }
      destruct (Nat.eqb off 0); cbn [obind]; [apply Fin; auto|].
      destruct (Nat.lt_ge_cases off row).
      * destruct (swap_rows_ok row col m off 0 Sh) as (m1 & E1 & S1 & _); [auto|lia|]. rewrite E1. cbn [obind]. apply Fin; auto.
      * rewrite swap_rows_out; auto. left. destruct Sh as [-> _]. auto.
    + elim (all_zero_no_ub mat_get m c (fun k => NU m k c) _ _ Ez).
  - intros [[m' sign] r] (-> & ->). unfold gauss_col. rewrite Nat.sub_0_r. destruct col as [|[|col]]; try lia. cbn [all_zero].
    rewrite (mat_get_out row (S (S col)) m 0 (S (S col)) Sh) by auto. auto.
Qed.

(** A dynamic matrix with more columns than rows: always a panic. *)
Theorem C90_dyn_wide_panics dbg row col (d : dyn T) : dyn_ok row col d -> 1 <= row < col ->
  (Z.of_nat row * Z.of_nat col <= usize_max)%Z ->
  dyn_row_reduce one sub mul neg div is_zero cmp dbg d = Pan.
Proof using.
  intros (R & C & L & B & BR) H Hb. unfold dyn_row_reduce, dyn_gauss. rewrite R, C, !Nat2Z.id.
  rewrite (first_column_pan (fun d i j => dyn_get dbg d (Z.of_nat i) (Z.of_nat j)) _ _ d row col row); auto; try lia.
  - unfold dyn_get, offset. rewrite C, usize_small by lia. cbn [obind]. rewrite usize_small by lia. cbn [obind].
    replace (Z.of_nat row * Z.of_nat col + Z.of_nat 0)%Z with (Z.of_nat (row * col)) by lia.
    rewrite slice_get_nth. apply vec_get_out. lia.
  - intros k. unfold dyn_get, offset, usize, slice_get, vec_get.
    destruct (_ <=? _)%Z; [|destruct dbg]; cbn [obind]; try discriminate;
      (destruct (_ <=? _)%Z; [|try destruct dbg]; cbn [obind]; try discriminate;
       destruct (_ <? _)%Z; try discriminate; destruct (nth_error _ _); discriminate).
Qed.
End Shapes.

(** Echelon form: below a row, entries start strictly further right. *)
Definition echelon {T} (z : T) (m : list (list T)) : Prop :=
  forall i i' j' v', i < i' -> entry m i' j' = Some v' -> v' <> z -> exists j v, j < j' /\ entry m i j = Some v /\ v <> z.

(** The two-element field. *)
Definition f2_div (x y : bool) : out bool := if y then Ret x else Pan.
Definition f2_cmp (x y : bool) : option comparison := Some (if x then (if y then Eq else Gt) else (if y then Lt else Eq)).
Definition f2_reduce := static_row_reduce true xorb andb (fun x => x) f2_div negb f2_cmp.
Definition f2_dyn_reduce := dyn_row_reduce true xorb andb (fun x => x) f2_div negb f2_cmp true.

(** Row reduction panics on the 1 by 2 matrix [1 1]; on the column [1 1 1] both matrix types
    return the input, which is not in echelon form. *)
Theorem C90_shapes_refuted :
  f2_reduce 1 2 [[true; true]] = Pan /\
  f2_reduce 3 2 [[true; false]; [false; true]; [true; true]] = Pan /\
  f2_reduce 3 1 [[true]; [true]; [true]] = Ret [[true]; [true]; [true]] /\
  (exists d, dyn_from true 3 1 [[true]; [true]; [true]] = Ret d /\ f2_dyn_reduce d = Ret d) /\
  ~ echelon false [[true]; [true]; [true]].
Proof.
  split; [vm_compute; reflexivity|]. split; [vm_compute; reflexivity|]. split; [vm_compute; reflexivity|]. split.
  - eexists. split; [vm_compute; reflexivity|vm_compute; reflexivity].
  - intros H. destruct (H 0 1 0 true) as (j & v & Hj & _); auto; [discriminate|lia].
Qed.

(** ** C91: indexing *)

(** Static matrices: exactly the entry, and a panic outside. *)
Theorem C91_static T row col (m : list (list T)) i j : shape row col m ->
  (i < row /\ j < col /\ exists v, entry m i j = Some v /\ mat_get m i j = Ret v) \/
  ((row <= i \/ col <= j) /\ mat_get m i j = Pan).
Proof.
  intros S. destruct (Nat.lt_ge_cases i row); [destruct (Nat.lt_ge_cases j col)|].
  - left. split; auto. split; auto. destruct (entry_in row col m i j) as (v & E); auto. exists v. rewrite mat_get_entry, E. auto.
  - right. split; auto. apply (mat_get_out row col); auto.
  - right. split; auto. apply (mat_get_out row col); auto.
Qed.

(** [DynMatrix] does not reject columns out of range, and [MatrixRef] reads outside the buffer;
    without overflow checks a [DynMatrix] can be built over an empty buffer and written through. *)
Theorem C91_indexing_refuted :
  dyn_get true (Dyn [1; 2; 3; 4] 2 2) 0 2 = Ret 3 /\
  ref_get true (ref_static 2 2 [[1; 2]; [3; 4]]) 0 2 = Ret 3 /\
  ref_get true (ref_static 2 2 [[1; 2]; [3; 4]]) 2 0 = UB /\
  (exists d, dyn_new false ([] : list nat) 4294967296 4294967296 = Ret d /\ mut_set false (ref_dyn d) 0 0 7 = UB).
Proof. repeat split; try (vm_compute; reflexivity). eexists. split; vm_compute; reflexivity. Qed.

(** [DynMatrix::new] accepts a buffer of exactly [row * col] elements and panics on every other
    length, as long as [row * col] fits a [usize] or overflow checks are on. *)
Theorem C91_new_partial T dbg (l : list T) row col : (Z.of_nat (length l) <= usize_max)%Z ->
  (Z.of_nat row <= usize_max)%Z ->
  (length l = row * col -> exists d, dyn_new dbg l (Z.of_nat row) (Z.of_nat col) = Ret d /\ dyn_ok row col d /\ data d = l) /\
  (length l <> row * col -> dbg = true \/ (Z.of_nat (row * col) <= usize_max)%Z ->
     dyn_new dbg l (Z.of_nat row) (Z.of_nat col) = Pan).
Proof.
  intros B BR. unfold dyn_new. split.
  - intros E. rewrite usize_small by lia. cbn [obind]. rewrite (proj2 (Z.eqb_eq _ _)) by lia.
    eexists. split; [reflexivity|]. split; [|reflexivity]. unfold dyn_ok. cbn. auto.
  - intros E H. unfold usize. destruct (Z.leb_spec (Z.of_nat row * Z.of_nat col) usize_max).
    + cbn [obind]. rewrite (proj2 (Z.eqb_neq _ _)) by lia. reflexivity.
    + destruct H as [->|H]; [reflexivity|lia].
Qed.

(** [DynMatrix]: in range the stored element; a row out of range panics (overflow checks on); a
    column out of range reads on into the following rows. *)
Theorem C91_dyn_partial T row col (d : dyn T) i j : dyn_ok row col d ->
  (forall dbg, i < row -> j < col -> exists v, nth_error (data d) (i * col + j) = Some v /\ dyn_get dbg d (Z.of_nat i) (Z.of_nat j) = Ret v) /\
  (row <= i -> dyn_get true d (Z.of_nat i) (Z.of_nat j) = Pan) /\
  (forall v, i * col + j < row * col -> nth_error (data d) (i * col + j) = Some v -> dyn_get true d (Z.of_nat i) (Z.of_nat j) = Ret v).
Proof.
  intros O. split; [intros dbg Hi Hj; apply (dyn_get_in dbg row col); auto|].
  destruct O as (R & C & L & B & BR).
  assert ((Z.of_nat (i * col + j) <= usize_max)%Z -> dyn_get true d (Z.of_nat i) (Z.of_nat j) = vec_get (data d) (i * col + j)) as G.
  { intros H. unfold dyn_get, offset. rewrite C, usize_small by lia. cbn [obind]. rewrite usize_small by lia. cbn [obind].
    rewrite <- slice_get_nth. f_equal. lia. }
  split.
  - intros Hi. destruct (Z.le_gt_cases (Z.of_nat (i * col + j)) usize_max) as [H|H].
    + rewrite G by auto. apply vec_get_out. nia.
    + unfold dyn_get, offset, usize. rewrite C. destruct (Z.leb_spec (Z.of_nat i * Z.of_nat col) usize_max); cbn [obind]; auto.
      destruct (Z.leb_spec (Z.of_nat i * Z.of_nat col + Z.of_nat j) usize_max); auto. lia.
  - intros v Hlt E. rewrite G by lia. apply vec_get_some. auto.
Qed.

Definition ref_ok {T} (row col : nat) (r : mref T) : Prop :=
  mrows r = Z.of_nat row /\ mcols r = Z.of_nat col /\ length (buf r) = row * col /\ (Z.of_nat (length (buf r)) <= usize_max)%Z.

Lemma deref_nth {T} (l : list T) k : deref l (Z.of_nat k) = match nth_error l k with Some v => Ret v | None => UB end.
Proof.
  unfold deref. rewrite Nat2Z.id. destruct (Z.ltb_spec (Z.of_nat k) (Z.of_nat (length l))); auto.
  destruct (nth_error l k) eqn:E; auto. assert (nth_error l k <> None) as H1 by congruence. apply nth_error_Some in H1. lia.
Qed.

(** [MatrixMut]'s [IndexMut]: exactly the element or a panic; reads and writes stay in the buffer. *)
Theorem C91_mut T dbg row col (r : mref T) i j v : ref_ok row col r ->
  (i < row -> j < col -> exists x r', nth_error (buf r) (i * col + j) = Some x /\
     mut_get dbg r (Z.of_nat i) (Z.of_nat j) = Ret x /\
     mut_set dbg r (Z.of_nat i) (Z.of_nat j) v = Ret r' /\ ref_ok row col r' /\
     forall a b, b < col -> nth_error (buf r') (a * col + b) = if Nat.eqb a i && Nat.eqb b j then Some v else nth_error (buf r) (a * col + b)) /\
  (row <= i \/ col <= j -> mut_get dbg r (Z.of_nat i) (Z.of_nat j) = Pan /\ mut_set dbg r (Z.of_nat i) (Z.of_nat j) v = Pan).
Proof.
  intros (R & C & L & B). unfold mut_get, mut_set. rewrite R, C. split.
  - intros Hi Hj. pose proof (index_lt row col i j Hi Hj).
    replace ((Z.of_nat i <? Z.of_nat row) && (Z.of_nat j <? Z.of_nat col))%Z with true
      by (symmetry; apply andb_true_iff; rewrite !Z.ltb_lt; lia).
    destruct (nth_error_lt (buf r) (i * col + j)) as (x & E); [lia|].
    rewrite (offset_ok dbg row col (length (buf r))) by auto. cbn [obind]. rewrite deref_nth, E. cbn [obind].
    exists x. eexists. split; auto. split; auto. split; [reflexivity|]. split.
    + unfold ref_ok. cbn. rewrite upd_length. auto.
    + intros a b Hb. cbn [buf]. rewrite Nat2Z.id, nth_upd by lia.
      destruct (Nat.eqb_spec (a * col + b) (i * col + j)) as [Eq|Ne].
      * apply index_inj in Eq; auto. destruct Eq as [-> ->]. rewrite !Nat.eqb_refl. auto.
      * destruct (Nat.eqb_spec a i) as [->|]; cbn [andb]; auto. destruct (Nat.eqb_spec b j) as [->|]; auto. contradiction.
  - intros H. replace ((Z.of_nat i <? Z.of_nat row) && (Z.of_nat j <? Z.of_nat col))%Z with false; auto.
    symmetry. apply andb_false_iff. rewrite !Z.ltb_ge. lia.
Qed.

(** [Index] of both reference types: right inside, a panic strictly beyond the sizes, and
    undefined behaviour for every index in the row just past the end. *)
Theorem C91_ref_partial T dbg row col (r : mref T) i j : ref_ok row col r ->
  (i < row -> j < col -> exists x, nth_error (buf r) (i * col + j) = Some x /\ ref_get dbg r (Z.of_nat i) (Z.of_nat j) = Ret x) /\
  (row < i \/ col < j -> ref_get dbg r (Z.of_nat i) (Z.of_nat j) = Pan) /\
  (i = row -> j <= col -> (Z.of_nat (row * col + col) <= usize_max)%Z -> ref_get dbg r (Z.of_nat i) (Z.of_nat j) = UB).
Proof.
  intros (R & C & L & B). unfold ref_get. rewrite R, C. split; [|split].
  - intros Hi Hj. pose proof (index_lt row col i j Hi Hj).
    replace ((Z.of_nat row <? Z.of_nat i) || (Z.of_nat col <? Z.of_nat j))%Z with false
      by (symmetry; apply orb_false_iff; rewrite !Z.ltb_ge; lia).
    destruct (nth_error_lt (buf r) (i * col + j)) as (x & E); [lia|]. exists x. split; auto.
    rewrite (offset_ok dbg row col (length (buf r))) by auto. cbn [obind]. rewrite deref_nth, E. auto.
  - intros H. replace ((Z.of_nat row <? Z.of_nat i) || (Z.of_nat col <? Z.of_nat j))%Z with true; auto.
    symmetry. apply orb_true_iff. rewrite !Z.ltb_lt. lia.
  - intros -> Hj Hb. replace ((Z.of_nat row <? Z.of_nat row) || (Z.of_nat col <? Z.of_nat j))%Z with false
      by (symmetry; apply orb_false_iff; rewrite !Z.ltb_ge; lia).
    unfold offset. rewrite usize_small by lia. cbn [obind]. rewrite usize_small by lia. cbn [obind].
    replace (Z.of_nat row * Z.of_nat col + Z.of_nat j)%Z with (Z.of_nat (row * col + j)) by lia.
    rewrite deref_nth. rewrite (proj2 (nth_error_None _ _)); auto. lia.
Qed.

(** References to static matrices and to valid dynamic ones satisfy the hypothesis, and the
    buffer holds row [i], column [j] at [i * cols + j]. *)
Theorem C91_row_major T row col (m : list (list T)) i j : shape row col m -> j < col ->
  nth_error (concat m) (i * col + j) = entry m i j /\ length (concat m) = row * col.
Proof.
  intros (L & F) Hj. subst row. split.
  - revert i. induction F as [|r m Hr F IH]; intros i.
    + cbn. unfold entry. destruct (i * col + j), i; auto.
    + cbn [concat]. destruct i as [|i]; cbn [Nat.mul Nat.add].
      * rewrite nth_error_app1 by lia. auto.
      * rewrite nth_error_app2 by lia. replace (col + i * col + j - length r) with (i * col + j) by lia. rewrite IH. auto.
  - induction F as [|r m Hr F IH]; cbn; auto. rewrite app_length, IH. lia.
Qed.

(** A reference to a static matrix, and a dynamic matrix made from one, read the same entries
    as the matrix itself; so does a reference to a dynamic matrix. *)
Theorem C91_same_entries T dbg row col (m : list (list T)) i j : shape row col m ->
  (Z.of_nat (row * col) <= usize_max)%Z -> (Z.of_nat row <= usize_max)%Z -> i < row -> j < col ->
  exists v d, entry m i j = Some v /\ mat_get m i j = Ret v /\
    ref_get dbg (ref_static row col m) (Z.of_nat i) (Z.of_nat j) = Ret v /\
    mut_get dbg (ref_static row col m) (Z.of_nat i) (Z.of_nat j) = Ret v /\
    dyn_from dbg row col m = Ret d /\ dyn_get dbg d (Z.of_nat i) (Z.of_nat j) = Ret v /\
    ref_get dbg (ref_dyn d) (Z.of_nat i) (Z.of_nat j) = Ret v /\
    mut_get dbg (ref_dyn d) (Z.of_nat i) (Z.of_nat j) = Ret v.
Proof.
  intros S B BR Hi Hj. destruct (C91_row_major T row col m i j S Hj) as [E L].
  destruct (entry_in row col m i j) as (v & Ev); auto.
  destruct (proj1 (C91_new_partial T dbg (concat m) row col ltac:(lia) BR) L) as (d & Ed & Od & Dd).
  assert (ref_ok row col (ref_static row col m)) as R1 by (unfold ref_ok; cbn; repeat split; auto; lia).
  assert (ref_ok row col (ref_dyn d)) as R2.
  { destruct Od as (X1 & X2 & X3 & X4 & _). unfold ref_ok. cbn. auto. }
  exists v, d. rewrite mat_get_entry, Ev. split; auto. split; auto.
  destruct (C91_ref_partial T dbg row col _ i j R1) as [G1 _]. destruct (G1 Hi Hj) as (x1 & A1 & A2).
  destruct (C91_ref_partial T dbg row col _ i j R2) as [G2 _]. destruct (G2 Hi Hj) as (x2 & B1 & B2).
  destruct (C91_mut T dbg row col _ i j v R1) as [G3 _]. destruct (G3 Hi Hj) as (x3 & ? & C1 & C2 & _).
  destruct (C91_mut T dbg row col _ i j v R2) as [G4 _]. destruct (G4 Hi Hj) as (x4 & ? & D1 & D2 & _).
  destruct (C91_dyn_partial T row col d i j Od) as [G5 _]. destruct (G5 dbg Hi Hj) as (x5 & E1 & E2).
  cbn [buf ref_static ref_dyn] in *. rewrite Dd in *. rewrite E, Ev in *.
  injection A1 as <-. injection B1 as <-. injection C1 as <-. injection D1 as <-. injection E1 as <-.
  repeat split; auto.
Qed.

(** ** C92: swapping rows *)
Theorem C92_static T row col (m : list (list T)) a b : shape row col m -> a < row -> b < row ->
  exists m', swap_rows m a b = Ret m' /\ shape row col m' /\
  forall i j, entry m' i j = entry m (if Nat.eqb i b then a else if Nat.eqb i a then b else i) j.
Proof. apply swap_rows_ok. Qed.

(** A row out of range panics. *)
Theorem C92_static_out T (m : list (list T)) a b : length m <= a \/ length m <= b -> swap_rows m a b = Pan.
Proof. apply swap_rows_out. Qed.

Theorem C92_dynamic T dbg row col (d : dyn T) a b : dyn_ok row col d -> a < row -> b < row ->
  exists d', dyn_swap_rows dbg d (Z.of_nat a) (Z.of_nat b) = Ret d' /\ dyn_ok row col d' /\
  forall i j, i < row -> j < col -> nth_error (data d') (i * col + j) =
    nth_error (data d) ((if Nat.eqb i b then a else if Nat.eqb i a then b else i) * col + j).
Proof. apply dyn_swap_in. Qed.

(** ** C94: bivectors *)

Lemma binom_succ n r : binom (S n) (S r) = (binom n r + binom n (S r))%Z.
Proof. reflexivity. Qed.
Lemma binom_0 n : binom n 0 = 1%Z.
Proof. destruct n; reflexivity. Qed.
Lemma binom_big : forall n r, n < r -> binom n r = 0%Z.
Proof.
  induction n as [|n IH]; intros [|r] H; try lia; auto. rewrite binom_succ, !IH by lia. auto.
Qed.
Lemma binom_pos : forall n r, r <= n -> (1 <= binom n r)%Z.
Proof.
  induction n as [|n IH]; intros [|r] H; try lia; rewrite ?binom_0; try lia.
  rewrite binom_succ. specialize (IH r ltac:(lia)).
  destruct (Nat.eq_dec (S r) (S n)) as [E|]; [rewrite (binom_big n (S r)) by lia; lia|].
  assert (0 <= binom n (S r))%Z; [|lia]. clear. revert r. induction n as [|n IH2]; intros r; [cbn; lia|].
  rewrite binom_succ. specialize (IH2 r). destruct r; [rewrite binom_0; lia|].
  assert (0 <= binom n (S r))%Z; [|lia]. clear. revert r. induction n; intros r; [cbn; lia|].
  rewrite binom_succ. pose proof (IHn r). destruct r; [rewrite binom_0; lia|]. pose proof (IHn r). lia.
Qed.
(** Absorption: (r+1) C(n+1, r+1) = (n+1) C(n, r). *)
Lemma binom_absorb : forall n r, (Z.of_nat (S r) * binom (S n) (S r) = Z.of_nat (S n) * binom n r)%Z.
Proof.
  induction n as [|n IH]; intros r.
  - destruct r as [|r]; [reflexivity|]. rewrite binom_succ, !(binom_big 0) by lia. lia.
  - rewrite binom_succ. destruct r as [|r].
    + rewrite !binom_0. specialize (IH 0). rewrite binom_0 in IH. lia.
    + pose proof (IH r) as H1. pose proof (IH (S r)) as H2. pose proof (binom_succ n r) as H3.
      rewrite (binom_succ n (S r)) in H2 |- *. nia.
Qed.

Lemma choose_loop_spec : forall r n o d total, r <= n -> (1 <= d)%Z -> (0 <= o)%Z -> (0 <= total)%Z ->
  (o * binom n r = total * d)%Z ->
  forall o' d', choose_loop true (Z.of_nat n) r o d = Ret (o', d') -> (1 <= d')%Z /\ (o' = total * d')%Z.
Proof.
  induction r as [|r IH]; intros n o d total Hn Hd Ho Ht E o' d' H.
  - cbn in H. injection H as <- <-. rewrite binom_0 in E. lia.
  - cbn [choose_loop] in H. unfold usize in H.
    destruct (Z.leb_spec (o * Z.of_nat n) usize_max); [|discriminate]. cbn [obind] in H.
    destruct (Z.leb_spec (d * Z.of_nat (S r)) usize_max); [|discriminate]. cbn [obind] in H.
    destruct (Z.eqb_spec (d * Z.of_nat (S r)) 0); [lia|].
    destruct n as [|n]; [lia|]. replace (Z.of_nat (S n) - 1)%Z with (Z.of_nat n) in H by lia.
    pose proof (binom_absorb n r) as A.
    assert (o * Z.of_nat (S n) * binom n r = total * (d * Z.of_nat (S r)))%Z as E2.
    { rewrite <- Z.mul_assoc, <- A. replace (o * (Z.of_nat (S r) * binom (S n) (S r)))%Z with (Z.of_nat (S r) * (o * binom (S n) (S r)))%Z by ring.
      rewrite E. ring. }
    destruct (Z.eqb_spec ((o * Z.of_nat (S n)) mod (d * Z.of_nat (S r))) 0) as [M|M].
    + apply Z.mod_divide in M; [|lia]. destruct M as (q & Hq). rewrite Hq in H. rewrite Z.div_mul in H by lia.
      assert (0 <= q)%Z by nia.
      apply (IH n q 1%Z total); auto; try lia. rewrite Hq in E2. nia.
    + apply (IH n (o * Z.of_nat (S n))%Z (d * Z.of_nat (S r))%Z total); auto; try lia.
Qed.

(** Whenever [choose_n] returns (with overflow checks), it is the binomial coefficient. *)
Theorem C94_choose n r v : choose_n true (Z.of_nat n) r = Ret v -> v = binom n r.
Proof.
  unfold choose_n. destruct (Z.ltb_spec (Z.of_nat n) (Z.of_nat r)) as [H|H].
  - intros E. injection E as <-. rewrite binom_big by lia. auto.
  - destruct (choose_loop true (Z.of_nat n) r 1 1) as [[o d]| |] eqn:E; cbn [obind]; try discriminate.
    pose proof (binom_pos n r ltac:(lia)) as P.
    destruct (choose_loop_spec r n 1 1 (binom n r)) with (o' := o) (d' := d) as [Hd Ho]; auto; try lia.
    destruct (Z.eqb_spec d 0); [lia|]. intros Q. injection Q as <-. rewrite Ho. apply Z.div_mul. auto.
Qed.

(** It returns whenever [C(n,r) * r!] fits. *)
Fixpoint factorial (n : nat) : Z := match n with O => 1 | S n' => Z.of_nat n * factorial n' end%Z.
Lemma factorial_pos n : (1 <= factorial n)%Z.
Proof. induction n; cbn [factorial]; lia. Qed.

Lemma choose_loop_total dbg total : forall r n o d, r <= n -> (1 <= d)%Z -> (0 <= o)%Z -> (0 <= total)%Z ->
  (o * binom n r = total * d)%Z -> (total * (d * factorial r) <= usize_max)%Z -> (d * factorial r <= usize_max)%Z ->
  exists o' d', choose_loop dbg (Z.of_nat n) r o d = Ret (o', d') /\ (1 <= d')%Z /\ (o' = total * d')%Z.
Proof.
  induction r as [|r IH]; intros n o d Hn Hd Ho Ht E B B2.
  - cbn. exists o, d. rewrite binom_0 in E. split; auto. lia.
  - cbn [choose_loop]. destruct n as [|n]; [lia|]. replace (Z.of_nat (S n) - 1)%Z with (Z.of_nat n) by lia.
    pose proof (binom_absorb n r) as A. pose proof (binom_pos n r ltac:(lia)) as P. pose proof (factorial_pos r) as FP.
    cbn [factorial] in B, B2.
    assert (o * Z.of_nat (S n) * binom n r = total * (d * Z.of_nat (S r)))%Z as E2.
    { rewrite <- Z.mul_assoc, <- A. replace (o * (Z.of_nat (S r) * binom (S n) (S r)))%Z with (Z.of_nat (S r) * (o * binom (S n) (S r)))%Z by ring.
      rewrite E. ring. }
    assert (o * Z.of_nat (S n) <= o * Z.of_nat (S n) * binom n r)%Z as L1 by nia.
    assert (0 <= d * Z.of_nat (S r))%Z as L0 by nia.
    assert (d * Z.of_nat (S r) <= d * Z.of_nat (S r) * factorial r)%Z as L2 by nia.
    assert (total * (d * Z.of_nat (S r)) <= total * (d * Z.of_nat (S r)) * factorial r)%Z as L3.
    { assert (0 <= total * (d * Z.of_nat (S r)))%Z by nia. nia. }
    rewrite usize_small by lia. cbn [obind]. rewrite usize_small by lia. cbn [obind].
    destruct (Z.eqb_spec (d * Z.of_nat (S r)) 0); [lia|].
    destruct (Z.eqb_spec ((o * Z.of_nat (S n)) mod (d * Z.of_nat (S r))) 0) as [M|M].
    + apply Z.mod_divide in M; [|lia]. destruct M as (q & Hq). rewrite Hq, Z.div_mul by lia.
      assert (0 <= q)%Z by nia. apply IH; auto; try lia.
      * rewrite Hq in E2. nia.
      * rewrite Z.mul_1_l. assert (1 <= d * Z.of_nat (S r))%Z by lia.
        assert (0 <= total * factorial r)%Z by nia. nia.
      * rewrite Z.mul_1_l. assert (1 <= d * Z.of_nat (S r))%Z by lia. nia.
    + apply IH; auto; try lia.
Qed.

Theorem C94_choose_returns dbg n r : r <= n -> (binom n r * factorial r <= usize_max)%Z ->
  choose_n dbg (Z.of_nat n) r = Ret (binom n r).
Proof.
  intros Hr B. unfold choose_n. destruct (Z.ltb_spec (Z.of_nat n) (Z.of_nat r)); [lia|].
  pose proof (binom_pos n r Hr). pose proof (factorial_pos r).
  destruct (choose_loop_total dbg (binom n r) r n 1 1) as (o & d & E & Hd & Ho); auto; try lia.
  { rewrite Z.mul_1_l. nia. }
  rewrite E. cbn [obind]. destruct (Z.eqb_spec d 0); [lia|]. rewrite Ho, Z.div_mul; auto.
Qed.

(** For two indices and a dimension for which the product overflows: [p] is the value the second round computes, half of [n] times
    [n - 1] for even [n] and all of it for odd [n]. With overflow checks the call panics; without, the count is that of [p] wrapped. *)
Theorem C94_count_overflow n : (2 <= n <= usize_max)%Z ->
  let p := ((if Z.even n then n / 2 else n) * (n - 1))%Z in (p > usize_max)%Z ->
  choose_n true n 2 = Pan /\
  choose_n false n 2 = Ret (p mod (usize_max + 1) / (if Z.even n then 1 else 2))%Z.
Proof.
  intros Hn p Hp. unfold choose_n. change (Z.of_nat 2) with 2%Z. destruct (Z.ltb_spec n 2) as [H|_]; [lia|].
  assert (forall v dbg, (v <= usize_max)%Z -> usize dbg v = Ret v) as Fit.
  { intros v dbg Hv. unfold usize. destruct (Z.leb_spec v usize_max); [auto|lia]. }
  assert (usize true p = Pan /\ usize false p = Ret (p mod (usize_max + 1))%Z) as [Ot Of].
  { unfold usize. destruct (Z.leb_spec p usize_max); [lia|auto]. }
  assert (2 < usize_max)%Z as U by reflexivity.
  assert (forall dbg, choose_loop dbg n 2 1 1 = obind (usize dbg p) (fun o =>
    if Z.even n then Ret (o, 1)%Z else Ret (if o mod 2 =? 0 then (o / 2, 1) else (o, 2))%Z)) as E.
  { intros dbg. cbn [choose_loop]. change (Z.of_nat 2) with 2%Z. change (Z.of_nat 1) with 1%Z.
    rewrite Z.mul_1_l, (Fit n) by lia. cbn [obind]. rewrite (Fit (1 * 2)%Z) by lia. cbn [obind].
    change (1 * 2 =? 0)%Z with false. cbn iota. change (1 * 2)%Z with 2%Z. subst p. rewrite Zmod_even in *.
    destruct (Z.even n).
    - change (0 =? 0)%Z with true. cbn iota. destruct (usize dbg (n / 2 * (n - 1))) as [o| |]; cbn [obind]; auto.
      rewrite (Fit (1 * 1)%Z) by lia. cbn [obind]. change (1 * 1 =? 0)%Z with false. change (1 * 1)%Z with 1%Z.
      rewrite Z.mod_1_r, Z.div_1_r. reflexivity.
    - change (1 =? 0)%Z with false. cbn iota. destruct (usize dbg (n * (n - 1))) as [o| |]; cbn [obind]; auto.
      rewrite (Fit (2 * 1)%Z) by lia. cbn [obind]. change (2 * 1 =? 0)%Z with false. change (2 * 1)%Z with 2%Z.
      destruct (o mod 2 =? 0)%Z; reflexivity. }
  rewrite !E, Ot, Of. cbn [obind]. split; [reflexivity|].
  destruct (Z.even n); cbn [obind]; [reflexivity|].
  destruct (Z.eqb_spec (p mod (usize_max + 1) mod 2) 0) as [Q|Q]; cbn [obind]; [|reflexivity].
  cbn. rewrite Z.div_1_r. reflexivity.
Qed.

Lemma pairs_count dim : Z.of_nat (length (index_pairs dim)) = binom dim 2.
Proof.
  assert (forall n k, (Z.of_nat (length (flat_map (fun i => map (fun j => (i, j)) (seq (S i) (k + n - S i))) (seq k n))) = binom n 2)%Z) as Len.
  { induction n as [|n IH]; intros k; [reflexivity|]. cbn [seq flat_map]. rewrite app_length, map_length, seq_length.
    rewrite Nat2Z.inj_add, binom_succ. specialize (IH (S k)). replace (S k + n) with (k + S n) in IH by lia. rewrite IH.
    replace (k + S n - S k) with n by lia. f_equal. clear. induction n as [|n IH]; [reflexivity|]. rewrite binom_succ, binom_0, <- IH. lia. }
  apply (Len dim 0).
Qed.

Lemma choose_two dbg dim : (Z.of_nat dim * Z.of_nat dim <= usize_max)%Z ->
  choose_n dbg (Z.of_nat dim) 2 = Ret (Z.of_nat (length (index_pairs dim))).
Proof.
  intros B. rewrite pairs_count.
  destruct (le_lt_dec 2 dim) as [H2|H2].
  - apply C94_choose_returns; auto. destruct dim as [|n]; [lia|]. pose proof (binom_absorb n 1) as A.
    assert (binom n 1 = Z.of_nat n) as E. { clear. induction n as [|n IH]; [reflexivity|]. rewrite binom_succ, binom_0, IH. lia. }
    rewrite E in A. change (factorial 2) with 2%Z. lia.
  - unfold choose_n. destruct (Z.ltb_spec (Z.of_nat dim) (Z.of_nat 2)); [|lia]. rewrite binom_big; auto.
Qed.

Section Wedge.
Context {R : Type} (rO rI : R) (radd rmul rsub : R -> R -> R) (ropp : R -> R) (div : R -> R -> out R).
Context (is_zero : R -> bool) (cmp : R -> R -> option comparison).

Definition wedge_at (z : R) (a b : list R) (p : nat * nat) : R :=
  rsub (rmul (nth (fst p) a z) (nth (snd p) b z)) (rmul (nth (snd p) a z) (nth (fst p) b z)).

Lemma for_loop_app {A} (f : nat -> list A) : forall len start acc body,
  (forall acc k, start <= k < start + len -> body acc k = Ret (acc ++ f k)) ->
  for_loop body start len acc = Ret (acc ++ flat_map f (seq start len)).
Proof.
  induction len as [|len IH]; intros start acc body H; cbn [for_loop seq flat_map].
  - rewrite app_nil_r. auto.
  - rewrite H by lia. cbn [obind]. rewrite IH; [rewrite app_assoc; auto|]. intros. apply H. lia.
Qed.

Lemma bivec_loops dbg dim (a b : list R) : length a = dim -> length b = dim ->
  bivec_new rI rsub rmul ropp div is_zero cmp dbg dim a b = obind (choose_n dbg (Z.of_nat dim) 2) (fun c =>
    if (Z.of_nat (length (index_pairs dim)) =? c)%Z then Ret (map (wedge_at rO a b) (index_pairs dim)) else Pan).
Proof.
  intros La Lb. unfold bivec_new. destruct (choose_n dbg (Z.of_nat dim) 2) as [c| |]; cbn [obind]; auto.
  rewrite (for_loop_app (fun i => map (fun j => wedge_at rO a b (i, j)) (seq (S i) (dim - S i)))).
  - cbn [obind app]. 
    assert (flat_map (fun i => map (fun j => wedge_at rO a b (i, j)) (seq (S i) (dim - S i))) (seq 0 dim)
      = map (wedge_at rO a b) (index_pairs dim)) as ->.
    { unfold index_pairs. generalize (seq 0 dim). induction l as [|i l IH]; cbn; auto. rewrite map_app, map_map, IH. auto. }
    rewrite map_length. auto.
  - intros acc i Hi. rewrite (for_loop_app (fun j => [wedge_at rO a b (i, j)])).
    + f_equal.
    + intros acc2 j Hj.
      assert (forall l k, length l = dim -> k < dim -> vec_get l k = Ret (nth k l rO)) as G.
      { intros l k L Hk. apply vec_get_some. rewrite (nth_error_nth' _ rO); auto. lia. }
      rewrite !G by (auto; lia). reflexivity.
Qed.

(** [wedge] has one component [a_i b_j - a_j b_i] for every [i < j], in order, and never panics. *)
Theorem C94_wedge dbg dim (a b : list R) : length a = dim -> length b = dim ->
  (Z.of_nat dim * Z.of_nat dim <= usize_max)%Z ->
  bivec_new rI rsub rmul ropp div is_zero cmp dbg dim a b = Ret (map (wedge_at rO a b) (index_pairs dim)).
Proof.
  intros La Lb B. rewrite bivec_loops by auto. rewrite choose_two by auto. cbn [obind]. rewrite Z.eqb_refl. auto.
Qed.

(** A dimension for which the count of components overflows: a panic in both builds. *)
Theorem C94_wedge_overflow dbg dim (a b : list R) : length a = dim -> length b = dim -> (2 <= Z.of_nat dim <= usize_max)%Z ->
  ((if Z.even (Z.of_nat dim) then Z.of_nat dim / 2 else Z.of_nat dim) * (Z.of_nat dim - 1) > usize_max)%Z ->
  bivec_new rI rsub rmul ropp div is_zero cmp dbg dim a b = Pan.
Proof using rO.
  intros La Lb Hd Hp. rewrite bivec_loops by auto. destruct (C94_count_overflow _ Hd Hp) as [Et Ef].
  destruct dbg; [rewrite Et; auto|]. rewrite Ef. cbn [obind].
  destruct (Z.eqb_spec (Z.of_nat (length (index_pairs dim))) ((((if Z.even (Z.of_nat dim) then Z.of_nat dim / 2 else Z.of_nat dim) * (Z.of_nat dim - 1)) mod (usize_max + 1)) / (if Z.even (Z.of_nat dim) then 1 else 2))) as [Q|Q]; auto.
  exfalso. revert Q. rewrite pairs_count.
  assert (binom dim 2 * 2 = Z.of_nat dim * (Z.of_nat dim - 1))%Z as A.
  { destruct dim as [|n]; [lia|]. pose proof (binom_absorb n 1) as A.
    assert (binom n 1 = Z.of_nat n) as E. { clear. induction n as [|n IH]; [reflexivity|]. rewrite binom_succ, binom_0, IH. lia. }
    rewrite E in A. lia. }
  set (p := ((if Z.even (Z.of_nat dim) then Z.of_nat dim / 2 else Z.of_nat dim) * (Z.of_nat dim - 1))%Z) in *.
  pose proof (Z.mod_pos_bound p (usize_max + 1) ltac:(reflexivity)) as M.
  assert (if Z.even (Z.of_nat dim) then binom dim 2 = p else (binom dim 2 * 2 = p)%Z) as Bp.
  { subst p. destruct (Z.even (Z.of_nat dim)) eqn:Ev; auto. apply Z.even_spec in Ev. destruct Ev as [k Ek]. rewrite Ek in *.
    rewrite (Z.mul_comm 2 k), Z.div_mul by lia. nia. }
  destruct (Z.even (Z.of_nat dim)).
  - rewrite Z.div_1_r. lia.
  - intros Q. pose proof (Z.div_mod (p mod (usize_max + 1)) 2 ltac:(lia)). pose proof (Z.mod_pos_bound (p mod (usize_max + 1)) 2 ltac:(lia)). lia.
Qed.

Context (RT : ring_theory rO rI radd rmul rsub ropp (@eq R)).
Add Ring Wring : RT.

(** There are C(dim, 2) components. *)
Theorem C94_count dbg dim (a b : list R) w : length a = dim -> length b = dim -> (Z.of_nat dim * Z.of_nat dim <= usize_max)%Z ->
  bivec_new rI rsub rmul ropp div is_zero cmp dbg dim a b = Ret w -> Z.of_nat (length w) = binom dim 2.
Proof using rO. intros La Lb B. rewrite C94_wedge by auto. intros E. injection E as <-. rewrite map_length. apply pairs_count. Qed.

(** Alternating: a vector wedged with itself is all zeros, and swapping the vectors negates. *)
Theorem C94_alternating dbg dim (a b : list R) : length a = dim -> length b = dim ->
  (Z.of_nat dim * Z.of_nat dim <= usize_max)%Z ->
  (exists z, bivec_new rI rsub rmul ropp div is_zero cmp dbg dim a a = Ret z /\ Forall (eq rO) z) /\
  (exists w, bivec_new rI rsub rmul ropp div is_zero cmp dbg dim a b = Ret w /\
             bivec_new rI rsub rmul ropp div is_zero cmp dbg dim b a = Ret (map ropp w)).
Proof using RT.
  intros La Lb B. rewrite !C94_wedge by auto. split.
  - eexists. split; [reflexivity|]. apply Forall_map. apply Forall_forall. intros p _. unfold wedge_at. ring.
  - eexists. split; [reflexivity|]. rewrite map_map. f_equal. apply map_ext. intros p. unfold wedge_at. ring.
Qed.
End Wedge.

(** ** The hypotheses are met *)
Example C91_demo_dyn : dyn_ok 2 3 (Dyn [1; 2; 3; 4; 5; 6] 2 3).
Proof. unfold dyn_ok. cbn. repeat split; vm_compute; discriminate. Qed.
Example C92_demo : dyn_swap_rows true (Dyn [1; 2; 3; 4; 5; 6] 3 2) 2 0 = Ret (Dyn [5; 6; 3; 4; 1; 2] 3 2).
Proof. vm_compute. reflexivity. Qed.
Example C91_demo_same : shape 2 3 [[1; 2; 3]; [4; 5; 6]] /\
  ref_get true (ref_static 2 3 [[1; 2; 3]; [4; 5; 6]]) 1 2 = Ret 6 /\
  obind (dyn_from true 2 3 [[1; 2; 3]; [4; 5; 6]]) (fun d => dyn_get true d 1 2) = Ret 6.
Proof. split; [split; [reflexivity|repeat constructor]|]. split; vm_compute; reflexivity. Qed.
Example C91_demo_ref : ref_ok 2 3 (ref_static 2 3 [[1; 2; 3]; [4; 5; 6]]).
Proof. unfold ref_ok. cbn. repeat split; vm_compute; discriminate. Qed.
Example C90_demo_wide : f2_reduce 2 3 [[true; false; true]; [false; true; true]] = Pan.
Proof. apply C90_wide_panics; [repeat constructor|lia]. Qed.
Example C94_demo_choose : choose_n true 23 17 = Ret 100947%Z.
Proof. vm_compute. reflexivity. Qed.
Example C94_demo_binom : binom 23 17 = 100947%Z.
Proof. vm_compute. reflexivity. Qed.
(** [n (n - 1)] overflows [usize]: a panic with overflow checks, a wrong count without. *)
Example C94_demo_overflow : choose_n true 6074001001 2 = Pan /\ choose_n false 6074001001 2 = Ret 3327948884%Z /\
  (6074001001 * 6074001000 / 2 = 18446744077037500500)%Z.
Proof. vm_compute. repeat split; reflexivity. Qed.
Example C94_demo_even : (2 <= 2^34 <= usize_max)%Z /\ Z.even (2^34) = true /\ (2^34 / 2 * (2^34 - 1) > usize_max)%Z /\
  choose_n false (2^34) 2 = Ret 18446744065119617024%Z.
Proof. vm_compute. repeat split; try discriminate; reflexivity. Qed.
Example C94_demo_wedge : bivec_new 1%Z Z.sub Z.mul Z.opp (fun x y => Ret (x / y)%Z) (Z.eqb 0) (fun x y => Some (x ?= y)%Z) true 3
  [1; 2; 3]%Z [4; 5; 7]%Z = Ret [-3; -5; -1]%Z.
Proof. apply (C94_wedge 0%Z); auto. vm_compute. discriminate. Qed.

Print Assumptions C90_wide_panics.
Print Assumptions C90_tall_panics.
Print Assumptions C90_dyn_wide_panics.
Print Assumptions C90_shapes_refuted.
Print Assumptions C91_static.
Print Assumptions C91_indexing_refuted.
Print Assumptions C91_new_partial.
Print Assumptions C91_dyn_partial.
Print Assumptions C91_mut.
Print Assumptions C91_ref_partial.
Print Assumptions C91_row_major.
Print Assumptions C92_static.
Print Assumptions C92_static_out.
Print Assumptions C92_dynamic.
Print Assumptions C94_choose.
Print Assumptions C94_count_overflow.
Print Assumptions C94_choose_returns.
Print Assumptions C94_wedge.
Print Assumptions C94_wedge_overflow.
Print Assumptions C94_count.
Print Assumptions C94_alternating.
Print Assumptions C91_same_entries.
