(** Lemmas about static and dynamic matrices. *)
From Coq Require Import List Bool Arith ZArith Lia.
From Verif Require Import Base StaticIterModel StaticIterSpec StaticIterProofs VectorModel CompoundsSpec VectorProofs MatrixModel GaussProofs.
Import ListNotations.

Lemma nth_upd {A} (l : list A) : forall i j v, i < length l ->
  nth_error (upd l i v) j = if Nat.eqb j i then Some v else nth_error l j.
Proof.
  induction l as [|x l IH]; intros i j v H; cbn in H; [lia|].
  destruct i as [|i], j as [|j]; cbn; auto. apply IH. lia.
Qed.

Lemma nth_error_lt {A} (l : list A) i : i < length l -> exists v, nth_error l i = Some v.
Proof. intros H. destruct (nth_error l i) eqn:E; eauto. apply nth_error_None in E. lia. Qed.

Lemma vec_get_some {T} (a : list T) i v : vec_get a i = Ret v <-> nth_error a i = Some v.
Proof. unfold vec_get. destruct (nth_error a i); split; congruence. Qed.

Lemma vec_get_out {T} (a : list T) i : length a <= i -> vec_get a i = Pan.
Proof. intros H. unfold vec_get. apply nth_error_None in H. rewrite H. auto. Qed.

(** ** Static matrices *)

Lemma mat_get_entry {T} (m : list (list T)) i j : mat_get m i j = match entry m i j with Some v => Ret v | None => Pan end.
Proof. unfold mat_get, vec_get, entry. destruct (nth_error m i); cbn; auto. Qed.

Lemma shape_row {T} row col (m : list (list T)) i : shape row col m -> i < row ->
  exists r, nth_error m i = Some r /\ length r = col.
Proof.
  intros (L & F) Hi. destruct (nth_error_lt m i) as (r & E); [lia|]. exists r. split; auto.
  rewrite Forall_forall in F. apply F. eapply nth_error_In; eauto.
Qed.

Lemma entry_in {T} row col (m : list (list T)) i j : shape row col m -> i < row -> j < col -> exists v, entry m i j = Some v.
Proof.
  intros S Hi Hj. destruct (shape_row _ _ _ _ S Hi) as (r & E & L). unfold entry. rewrite E. apply nth_error_lt. lia.
Qed.

Lemma entry_out {T} row col (m : list (list T)) i j : shape row col m -> (row <= i \/ col <= j) -> entry m i j = None.
Proof.
  intros S H. unfold entry. destruct (nth_error m i) eqn:E; auto.
  assert (i < row) as Hi. { destruct S as [<- _]. apply nth_error_Some. congruence. }
  destruct (shape_row _ _ _ _ S Hi) as (r & E' & L). rewrite E in E'. injection E' as ->.
  apply nth_error_None. lia.
Qed.

Lemma nth_error_ext {A} : forall l l' : list A, (forall i, nth_error l i = nth_error l' i) -> l = l'.
Proof.
  induction l as [|x l IH]; intros [|x' l'] H; auto.
  - specialize (H 0). discriminate.
  - specialize (H 0). discriminate.
  - pose proof (H 0) as H0. cbn in H0. injection H0 as ->. f_equal. apply IH. intros i. apply (H (S i)).
Qed.

Lemma entry_ext {T} row col (m m' : list (list T)) : shape row col m -> shape row col m' ->
  (forall i j, i < row -> j < col -> entry m i j = entry m' i j) -> m = m'.
Proof.
  intros S S' H. apply nth_error_ext. intros i.
  destruct (le_lt_dec row i) as [Hi|Hi].
  - destruct S as [L _], S' as [L' _]. rewrite !(proj2 (nth_error_None _ _)) by lia. auto.
  - destruct (shape_row _ _ _ _ S Hi) as (r & E & L), (shape_row _ _ _ _ S' Hi) as (r' & E' & L').
    rewrite E, E'. f_equal. apply nth_error_ext. intros j. destruct (le_lt_dec col j) as [Hj|Hj].
    + rewrite !(proj2 (nth_error_None _ _)) by lia. auto.
    + specialize (H i j Hi Hj). unfold entry in H. rewrite E, E' in H. auto.
Qed.

Lemma shape_upd {T} row col (m : list (list T)) i r : shape row col m -> length r = col -> shape row col (upd m i r).
Proof.
  intros (L & F) Hr. split; [rewrite upd_length; auto|]. clear L. revert i.
  induction F as [|x m Hx F IH]; intros [|i]; cbn; constructor; auto.
Qed.

Lemma mat_set_ok {T} row col (m : list (list T)) i j v : shape row col m -> i < row -> j < col ->
  exists m', mat_set m i j v = Ret m' /\ shape row col m' /\
  forall a b, entry m' a b = if Nat.eqb a i && Nat.eqb b j then Some v else entry m a b.
Proof.
  intros S Hi Hj. destruct (shape_row _ _ _ _ S Hi) as (r & E & L). destruct (nth_error_lt r j) as (x & Ex); [lia|].
  unfold mat_set, vec_get. rewrite E. cbn [obind]. rewrite Ex. cbn [obind]. eexists. split; [reflexivity|].
  split; [apply shape_upd; auto; rewrite upd_length; auto|]. intros a b. unfold entry.
  rewrite nth_upd by (destruct S; lia). destruct (Nat.eqb_spec a i) as [->|]; cbn [andb]; auto.
  rewrite nth_upd by lia. rewrite E. auto.
Qed.

Lemma swap_rows_ok {T} row col (m : list (list T)) s r : shape row col m -> s < row -> r < row ->
  exists m', swap_rows m s r = Ret m' /\ shape row col m' /\
  forall a b, entry m' a b = entry m (if Nat.eqb a r then s else if Nat.eqb a s then r else a) b.
Proof.
  intros S Hs Hr. destruct (shape_row _ _ _ _ S Hs) as (x & Ex & Lx), (shape_row _ _ _ _ S Hr) as (y & Ey & Ly).
  unfold swap_rows, vec_get. rewrite Ex. cbn [obind]. rewrite Ey. cbn [obind]. eexists. split; [reflexivity|].
  split; [apply shape_upd; auto; apply shape_upd; auto|]. intros a b. unfold entry.
  assert (length m = row) as Lm by apply S.
  rewrite nth_upd by (rewrite upd_length; lia). rewrite nth_upd by lia.
  destruct (Nat.eqb_spec a r) as [->|]; [rewrite Ex; auto|]. destruct (Nat.eqb_spec a s) as [->|]; [rewrite Ey; auto|auto].
Qed.

Lemma swap_rows_out {T} (m : list (list T)) s r : length m <= s \/ length m <= r -> swap_rows m s r = Pan.
Proof.
  intros H. unfold swap_rows. destruct (le_lt_dec (length m) s) as [Hs|Hs].
  - rewrite vec_get_out by auto. auto.
  - destruct (nth_error_lt m s Hs) as (x & Ex). apply vec_get_some in Ex. rewrite Ex. cbn [obind].
    rewrite vec_get_out by lia. auto.
Qed.

(** Entries with a default. *)
Definition at_ {T} (z : T) (m : list (list T)) (i j : nat) : T := match entry m i j with Some v => v | None => z end.

Lemma entry_at {T} z row col (m : list (list T)) i j : shape row col m -> i < row -> j < col -> entry m i j = Some (at_ z m i j).
Proof. intros S Hi Hj. destruct (entry_in _ _ _ _ _ S Hi Hj) as (v & E). unfold at_. rewrite E. auto. Qed.

Lemma mat_get_at {T} z row col (m : list (list T)) i j : shape row col m -> i < row -> j < col -> mat_get m i j = Ret (at_ z m i j).
Proof. intros S Hi Hj. rewrite mat_get_entry, (entry_at z row col) by auto. auto. Qed.

Lemma mat_get_out {T} row col (m : list (list T)) i j : shape row col m -> (row <= i \/ col <= j) -> mat_get m i j = Pan.
Proof. intros S H. rewrite mat_get_entry, (entry_out row col) by auto. auto. Qed.

(** [from_fn] *)
Lemma array_map_seq {T} (f : nat -> out T) (g : nat -> T) : forall n k, (forall i, k <= i < k + n -> f i = Ret (g i)) ->
  array_map f (seq k n) = Ret (map g (seq k n)).
Proof.
  induction n as [|n IH]; intros k H; cbn; auto. rewrite H by lia. cbn [obind].
  rewrite IH by (intros; apply H; lia). auto.
Qed.

Lemma from_fn_ok {T} n (f : nat -> out T) g : (forall i, i < n -> f i = Ret (g i)) -> from_fn n f = Ret (map g (seq 0 n)).
Proof. intros H. apply array_map_seq. intros. apply H. lia. Qed.

Lemma nth_error_map_seq {T} (g : nat -> T) n i : nth_error (map g (seq 0 n)) i = if Nat.ltb i n then Some (g i) else None.
Proof.
  destruct (Nat.ltb_spec i n) as [H|H].
  - rewrite nth_error_map, (nth_error_nth' _ 0) by (rewrite seq_length; auto). cbn. rewrite seq_nth by auto. auto.
  - apply nth_error_None. rewrite map_length, seq_length. auto.
Qed.

Definition tabulate {T} (row col : nat) (g : nat -> nat -> T) : list (list T) :=
  map (fun i => map (g i) (seq 0 col)) (seq 0 row).

Lemma tabulate_shape {T} row col (g : nat -> nat -> T) : shape row col (tabulate row col g).
Proof.
  split; [unfold tabulate; rewrite map_length, seq_length; auto|].
  apply Forall_forall. intros r H. apply in_map_iff in H. destruct H as (i & <- & _). rewrite map_length, seq_length. auto.
Qed.

Lemma tabulate_entry {T} row col (g : nat -> nat -> T) i j : i < row -> j < col -> entry (tabulate row col g) i j = Some (g i j).
Proof.
  intros Hi Hj. unfold entry, tabulate. rewrite nth_error_map_seq.
  replace (Nat.ltb i row) with true by (symmetry; apply Nat.ltb_lt; auto). rewrite nth_error_map_seq.
  replace (Nat.ltb j col) with true by (symmetry; apply Nat.ltb_lt; auto). auto.
Qed.

Lemma tabulate_at {T} z row col (g : nat -> nat -> T) i j : i < row -> j < col -> at_ z (tabulate row col g) i j = g i j.
Proof. intros Hi Hj. unfold at_. rewrite tabulate_entry; auto. Qed.

Lemma tabulate_self {T} z row col (m : list (list T)) : shape row col m -> tabulate row col (at_ z m) = m.
Proof.
  intros S. apply (entry_ext row col); auto using tabulate_shape. intros i j Hi Hj.
  rewrite tabulate_entry, (entry_at z row col) by auto. auto.
Qed.

Lemma tabulate_ext {T} row col (g h : nat -> nat -> T) : (forall i j, i < row -> j < col -> g i j = h i j) ->
  tabulate row col g = tabulate row col h.
Proof.
  intros H. apply (entry_ext row col); auto using tabulate_shape. intros i j Hi Hj. rewrite !tabulate_entry by auto.
  rewrite H by auto. auto.
Qed.

(** ** Transposition *)
Lemma transpose_ok {T} z row col (m : list (list T)) : shape row col m ->
  transpose col m = Ret (tabulate col row (fun i j => at_ z m j i)).
Proof.
  intros S. unfold transpose.
  assert (items col 0 (zip_all m) (tabulate col row (fun i j => at_ z m j i))) as I.
  { apply items_all. exists m. split.
    - destruct S as (_ & F). clear - F. unfold zip_all. induction F; cbn; constructor; auto. apply into_items; auto.
    - rewrite Nat.sub_0_r. split; [apply tabulate_shape|].
      intros i r E. unfold tabulate in E. rewrite nth_error_map_seq in E.
      destruct (Nat.ltb_spec i col) as [Hi|]; [|discriminate]. injection E as <-.
      assert (forall k m2, (forall j row2, nth_error m2 j = Some row2 -> nth_error m (k + j) = Some row2) ->
        k + length m2 = row ->
        Forall2 (fun c x => nth_error c i = Some x) m2 (map (fun j => at_ z m j i) (seq k (length m2)))) as G.
      { intros k m2. revert k. induction m2 as [|c m2 IH]; intros k H L; cbn; constructor.
        - cbn in L. specialize (H 0 c eq_refl). rewrite Nat.add_0_r in H.
          pose proof (entry_at z row col m k i S) as E. unfold entry in E. rewrite H in E. apply E; auto. lia.
        - apply IH; [|cbn in L; lia]. intros j row2 Hj. specialize (H (Datatypes.S j) row2 Hj).
          rewrite Nat.add_succ_r in H. auto. }
      specialize (G 0 m). assert (length m = row) as L by apply S. rewrite L in G. apply G; auto. }
  unfold collect_array, array_from_static_iter.
  destruct (fold_whole (fun l x => Ret (l ++ [x])) col (zip_all m) _ [] _ I (ofold_snoc _ [])) as (a' & E).
  rewrite E. auto.
Qed.

(** ** Static matrices over which elimination runs *)
Lemma static_get_ok {T} (z : T) n : forall m i j, shape n n m -> i < n -> j < n -> mat_get m i j = Ret (at_ z m i j).
Proof. intros m i j S Hi Hj. apply (mat_get_at z n n); auto. Qed.

Lemma static_set_ok {T} (z : T) n : forall m i j v, shape n n m -> i < n -> j < n -> exists m', mat_set m i j v = Ret m' /\ shape n n m' /\
  forall a b, a < n -> b < n -> at_ z m' a b = if Nat.eqb a i && Nat.eqb b j then v else at_ z m a b.
Proof.
  intros m i j v S Hi Hj. destruct (mat_set_ok n n m i j v S Hi Hj) as (m' & E & S' & H). exists m'. split; auto. split; auto.
  intros a b Ha Hb. unfold at_. rewrite H. destruct (_ && _); auto.
Qed.

Lemma static_swap_ok {T} (z : T) n : forall m s r, shape n n m -> s < n -> r < n -> s <> r -> exists m', swap_rows m s r = Ret m' /\ shape n n m' /\
  forall a b, a < n -> b < n -> at_ z m' a b = at_ z m (if Nat.eqb a r then s else if Nat.eqb a s then r else a) b.
Proof.
  intros m s r S Hs Hr _. destruct (swap_rows_ok n n m s r S Hs Hr) as (m' & E & S' & H). exists m'. split; auto. split; auto.
  intros a b Ha Hb. unfold at_. rewrite H. auto.
Qed.

(** ** Dynamic matrices *)

(** What [DynMatrix::new] and [From] establish, with sizes that do not overflow. *)
Definition dyn_ok {T} (row col : nat) (d : dyn T) : Prop :=
  rows d = Z.of_nat row /\ cols d = Z.of_nat col /\ length (data d) = row * col /\ (Z.of_nat (length (data d)) <= usize_max)%Z /\
  (Z.of_nat row <= usize_max)%Z.

Lemma usize_small dbg v : (v <= usize_max)%Z -> usize dbg v = Ret v.
Proof. intros H. unfold usize. apply Z.leb_le in H. rewrite H. auto. Qed.

Lemma index_lt row col i j : i < row -> j < col -> i * col + j < row * col.
Proof. intros. nia. Qed.

Lemma offset_ok dbg row col (n : nat) i j : n = row * col -> (Z.of_nat n <= usize_max)%Z -> i < row -> j < col ->
  offset dbg (Z.of_nat col) (Z.of_nat i) (Z.of_nat j) = Ret (Z.of_nat (i * col + j)).
Proof.
  intros L B Hi Hj. unfold offset. pose proof (index_lt row col i j Hi Hj).
  rewrite usize_small by nia. cbn [obind]. rewrite usize_small by nia. f_equal. lia.
Qed.

Lemma slice_get_nth {T} (l : list T) k : slice_get l (Z.of_nat k) = vec_get l k.
Proof.
  unfold slice_get. rewrite Nat2Z.id. destruct (Z.ltb_spec (Z.of_nat k) (Z.of_nat (length l))); auto.
  rewrite vec_get_out by lia. auto.
Qed.

Lemma dyn_get_in {T} dbg row col (d : dyn T) i j : dyn_ok row col d -> i < row -> j < col ->
  exists v, nth_error (data d) (i * col + j) = Some v /\ dyn_get dbg d (Z.of_nat i) (Z.of_nat j) = Ret v.
Proof.
  intros (R & C & L & B & BR) Hi Hj. pose proof (index_lt row col i j Hi Hj).
  destruct (nth_error_lt (data d) (i * col + j)) as (v & E); [lia|]. exists v. split; auto.
  unfold dyn_get. rewrite C, (offset_ok dbg row col (length (data d))) by auto. cbn [obind]. rewrite slice_get_nth.
  apply vec_get_some. auto.
Qed.

Lemma index_inj col i j i' j' : j < col -> j' < col -> i * col + j = i' * col + j' -> i = i' /\ j = j'.
Proof. intros. assert (i = i') by nia. subst. split; auto. lia. Qed.

Lemma dyn_set_in {T} dbg row col (d : dyn T) i j v : dyn_ok row col d -> i < row -> j < col ->
  exists d', dyn_set dbg d (Z.of_nat i) (Z.of_nat j) v = Ret d' /\ dyn_ok row col d' /\
  forall a b, b < col -> nth_error (data d') (a * col + b) = if Nat.eqb a i && Nat.eqb b j then Some v else nth_error (data d) (a * col + b).
Proof.
  intros O Hi Hj. destruct (dyn_get_in dbg row col d i j O Hi Hj) as (x & E & _).
  destruct O as (R & C & L & B & BR). pose proof (index_lt row col i j Hi Hj).
  unfold dyn_set. rewrite C, (offset_ok dbg row col (length (data d))) by auto. cbn [obind]. rewrite slice_get_nth.
  apply vec_get_some in E. rewrite E. cbn [obind]. eexists. split; [reflexivity|]. split.
  - unfold dyn_ok. cbn. rewrite upd_length. auto.
  - intros a b Hb. cbn [data]. rewrite Nat2Z.id, nth_upd by lia.
    destruct (Nat.eqb_spec (a * col + b) (i * col + j)) as [Eq|Ne].
    + apply index_inj in Eq; auto. destruct Eq as [-> ->]. rewrite !Nat.eqb_refl. auto.
    + destruct (Nat.eqb_spec a i) as [->|]; cbn [andb]; auto. destruct (Nat.eqb_spec b j) as [->|]; auto. contradiction.
Qed.

Lemma nth_app {A} (l l' : list A) k : nth_error (l ++ l') k = if Nat.ltb k (length l) then nth_error l k else nth_error l' (k - length l).
Proof. destruct (Nat.ltb_spec k (length l)); [apply nth_error_app1|apply nth_error_app2]; auto. Qed.

Lemma nth_firstn {A} (l : list A) : forall n k, nth_error (firstn n l) k = if Nat.ltb k n then nth_error l k else None.
Proof.
  induction l as [|x l IH]; intros [|n] [|k]; cbn [firstn nth_error]; auto.
  - destruct (Nat.ltb _ _); auto.
  - rewrite IH. auto.
Qed.

Lemma nth_skipn {A} (l : list A) : forall n k, nth_error (skipn n l) k = nth_error l (n + k).
Proof. induction l as [|x l IH]; intros [|n] k; cbn; auto. destruct k; auto. Qed.

Lemma dyn_swap_in {T} dbg row col (d : dyn T) s r : dyn_ok row col d -> s < row -> r < row ->
  exists d', dyn_swap_rows dbg d (Z.of_nat s) (Z.of_nat r) = Ret d' /\ dyn_ok row col d' /\
  forall a b, a < row -> b < col -> nth_error (data d') (a * col + b) =
    nth_error (data d) ((if Nat.eqb a r then s else if Nat.eqb a s then r else a) * col + b).
Proof.
  intros O Hs Hr. unfold dyn_swap_rows. destruct (Z.eqb_spec (Z.of_nat s) (Z.of_nat r)) as [E|E].
  { apply Nat2Z.inj in E. subst. exists d. split; auto. split; auto. intros a b Ha Hb.
    destruct (Nat.eqb_spec a r); subst; auto. }
  assert (s <> r) as Ne by congruence. clear E.
  destruct O as (R & C & L & B & BR).
  rewrite <- Nat2Z.inj_min, <- Nat2Z.inj_max. set (l := Nat.min s r). set (h := Nat.max s r).
  assert (l < h /\ h < row) as [Hlh Hh] by (unfold l, h; lia).
  assert (h * col + col <= row * col /\ l * col + col <= h * col) as [B1 B2] by nia.
  rewrite C. rewrite <- !Nat2Z.inj_mul.
  rewrite usize_small by lia. cbn [obind].
  replace (Z.of_nat (length (data d)) <? Z.of_nat (h * col))%Z with false by (symmetry; apply Z.ltb_ge; lia).
  rewrite usize_small by lia. cbn [obind]. rewrite usize_small by lia. cbn [obind].
  rewrite usize_small by lia. cbn [obind].
  assert (length (firstn (h * col) (data d)) = h * col) as Lf by (rewrite firstn_length; lia).
  rewrite !Nat2Z.id. unfold subslice at 1. rewrite Lf.
  replace ((Z.of_nat (l * col) <=? (Z.of_nat l + 1) * Z.of_nat col) && ((Z.of_nat l + 1) * Z.of_nat col <=? Z.of_nat (h * col)))%Z with true
    by (symmetry; apply andb_true_iff; rewrite !Z.leb_le; lia).
  cbn [obind]. replace (Z.to_nat ((Z.of_nat l + 1) * Z.of_nat col - Z.of_nat (l * col))) with col by lia.
  rewrite Nat2Z.id. unfold subslice. rewrite skipn_length.
  replace ((0 <=? Z.of_nat col) && (Z.of_nat col <=? Z.of_nat (length (data d) - h * col)))%Z with true
    by (symmetry; apply andb_true_iff; rewrite !Z.leb_le; lia).
  cbn [obind]. replace (Z.to_nat (Z.of_nat col - 0)) with col by lia. cbn [Z.to_nat skipn].
  assert (length (firstn col (skipn (l * col) (firstn (h * col) (data d)))) = col) as Lx by (rewrite firstn_length, skipn_length, Lf; lia).
  assert (length (firstn col (skipn (h * col) (data d))) = col) as Ly by (rewrite firstn_length, skipn_length; lia).
  rewrite Lx, Ly, Nat.eqb_refl. eexists. split; [reflexivity|]. split.
  - unfold dyn_ok. cbn [rows cols data]. split; auto. split; auto.
    rewrite !app_length, Lx, Ly, !skipn_length, firstn_length, Lf. repeat split; auto; lia.
  - intros a b Ha Hb. cbn [data].
    assert (a = l \/ a = h \/ (a <> l /\ a <> h)) as D by lia.
    assert ((if Nat.eqb a r then s else if Nat.eqb a s then r else a) = (if Nat.eqb a l then h else if Nat.eqb a h then l else a)) as ->.
    { unfold l, h. clear - Ne. destruct (Nat.min_spec s r) as [[? ->]|[? ->]], (Nat.max_spec s r) as [[? ->]|[? ->]]; try lia;
        destruct (Nat.eqb_spec a r), (Nat.eqb_spec a s); subst; auto; lia. }
    assert (length (firstn (l * col) (firstn (h * col) (data d))) = l * col) as Ls by (rewrite firstn_length, Lf; lia).
    assert (length (skipn (l * col + col) (firstn (h * col) (data d))) = h * col - (l * col + col)) as Lm by (rewrite skipn_length, Lf; lia).
    rewrite !nth_app, Ls, Lx, Ly, Lm.
    rewrite ?nth_firstn, ?nth_skipn, ?nth_firstn.
    destruct (Nat.eqb_spec a l) as [->|Nl]; [|destruct (Nat.eqb_spec a h) as [->|Nh]].
    + destruct (Nat.ltb_spec (l * col + b) (l * col)); [lia|].
      destruct (Nat.ltb_spec (l * col + b - l * col) col); [|lia].
      f_equal. lia.
    + destruct (Nat.ltb_spec (h * col + b) (l * col)); [lia|].
      destruct (Nat.ltb_spec (h * col + b - l * col) col); [lia|].
      destruct (Nat.ltb_spec (h * col + b - l * col - col) (h * col - (l * col + col))); [lia|].
      destruct (Nat.ltb_spec (h * col + b - l * col - col - (h * col - (l * col + col))) col); [|lia].
      destruct (Nat.ltb_spec (l * col + (h * col + b - l * col - col - (h * col - (l * col + col)))) (h * col)); [|lia].
      f_equal. lia.
    + assert (a < l \/ l < a < h \/ h < a) as [H|[H|H]] by lia.
      * assert (a * col + b < l * col) by nia.
        destruct (Nat.ltb_spec (a * col + b) (l * col)); [|lia].
        destruct (Nat.ltb_spec (a * col + b) (h * col)); [|lia]. auto.
      * assert (l * col + col <= a * col + b < h * col) by nia.
        destruct (Nat.ltb_spec (a * col + b) (l * col)); [lia|].
        destruct (Nat.ltb_spec (a * col + b - l * col) col); [lia|].
        destruct (Nat.ltb_spec (a * col + b - l * col - col) (h * col - (l * col + col))); [|lia].
        destruct (Nat.ltb_spec (l * col + col + (a * col + b - l * col - col)) (h * col)); [|lia]. f_equal. lia.
      * assert (h * col + col <= a * col + b) by nia.
        destruct (Nat.ltb_spec (a * col + b) (l * col)); [lia|].
        destruct (Nat.ltb_spec (a * col + b - l * col) col); [lia|].
        destruct (Nat.ltb_spec (a * col + b - l * col - col) (h * col - (l * col + col))); [lia|].
        destruct (Nat.ltb_spec (a * col + b - l * col - col - (h * col - (l * col + col))) col); [lia|].
        f_equal. lia.
Qed.

Definition dyn_at {T} (z : T) (n : nat) (d : dyn T) (i j : nat) : T :=
  match nth_error (data d) (i * n + j) with Some v => v | None => z end.

Lemma dyn_get_ok {T} (z : T) dbg n : forall d i j, dyn_ok n n d -> i < n -> j < n ->
  dyn_get dbg d (Z.of_nat i) (Z.of_nat j) = Ret (dyn_at z n d i j).
Proof.
  intros d i j O Hi Hj. destruct (dyn_get_in dbg n n d i j O Hi Hj) as (v & E & G). rewrite G. unfold dyn_at. rewrite E. auto.
Qed.

Lemma dyn_set_ok {T} (z : T) dbg n : forall d i j v, dyn_ok n n d -> i < n -> j < n ->
  exists d', dyn_set dbg d (Z.of_nat i) (Z.of_nat j) v = Ret d' /\ dyn_ok n n d' /\
  forall a b, a < n -> b < n -> dyn_at z n d' a b = if Nat.eqb a i && Nat.eqb b j then v else dyn_at z n d a b.
Proof.
  intros d i j v O Hi Hj. destruct (dyn_set_in dbg n n d i j v O Hi Hj) as (d' & E & O' & H). exists d'. split; auto. split; auto.
  intros a b Ha Hb. unfold dyn_at. rewrite H by auto. destruct (_ && _); auto.
Qed.

Lemma dyn_swap_ok {T} (z : T) dbg n : forall d s r, dyn_ok n n d -> s < n -> r < n -> s <> r ->
  exists d', dyn_swap_rows dbg d (Z.of_nat s) (Z.of_nat r) = Ret d' /\ dyn_ok n n d' /\
  forall a b, a < n -> b < n -> dyn_at z n d' a b = dyn_at z n d (if Nat.eqb a r then s else if Nat.eqb a s then r else a) b.
Proof.
  intros d s r O Hs Hr _. destruct (dyn_swap_in dbg n n d s r O Hs Hr) as (d' & E & O' & H). exists d'. split; auto. split; auto.
  intros a b Ha Hb. unfold dyn_at. rewrite H by auto. auto.
Qed.

(** ** Element-wise operations and tests *)
Lemma Forall3_nth {A B C} (R : A -> B -> C -> Prop) : forall a b c, length b = length a -> length c = length a ->
  (forall i x y z, nth_error a i = Some x -> nth_error b i = Some y -> nth_error c i = Some z -> R x y z) -> Forall3 R a b c.
Proof.
  induction a as [|x a IH]; intros [|y b] [|z c] Lb Lc H; try discriminate; constructor.
  - apply (H 0); auto.
  - apply IH; auto. intros i. apply (H (S i)).
Qed.

Lemma mat_op_ok {A B O} (za : A) (zb : B) (op : A -> B -> O) row col m m2 : shape row col m -> shape row col m2 ->
  mat_op (fun x y => Ret (op x y)) row col m m2 = Ret (tabulate row col (fun i j => op (at_ za m i j) (at_ zb m2 i j))).
Proof.
  intros S S2. change (mat_op (fun x y => Ret (op x y)) row col m m2) with (vec_op (vec_op (fun x y => Ret (op x y)) col) row m m2).
  pose proof (tabulate_shape row col (fun i j => op (at_ za m i j) (at_ zb m2 i j))) as St.
  apply vec_op_ret; [apply S|]. apply Forall3_nth; [destruct S, S2; congruence|destruct S, St; congruence|].
  intros i x y z Ex Ey Ez.
  assert (i < row) as Hi. { destruct S as [<- _]. apply nth_error_Some. congruence. }
  destruct (shape_row _ _ _ _ S Hi) as (x' & Ex' & Lx), (shape_row _ _ _ _ S2 Hi) as (y' & Ey' & Ly),
    (shape_row _ _ _ _ St Hi) as (z' & Ez' & Lz).
  assert (x' = x) by congruence. assert (y' = y) by congruence. assert (z' = z) by congruence. subst x' y' z'.
  apply vec_op_ret; auto. apply Forall3_nth; try congruence. intros j u v w Eu Ev Ew. f_equal.
  assert (j < col) as Hj. { rewrite <- Lx. apply nth_error_Some. congruence. }
  pose proof (tabulate_entry row col (fun i j => op (at_ za m i j) (at_ zb m2 i j)) i j Hi Hj) as H.
  unfold entry at 1 in H. rewrite Ez', Ew in H.
  assert (at_ za m i j = u) as Q1 by (unfold at_, entry; rewrite Ex, Eu; auto).
  assert (at_ zb m2 i j = v) as Q2 by (unfold at_, entry; rewrite Ey, Ev; auto).
  rewrite Q1, Q2 in H. congruence.
Qed.

Lemma is_one_ok {T} (is_zero is_one : T -> bool) row col m : shape row col m ->
  exists r, mat_is_one is_zero is_one row col m = Ret r /\
  (r = true <-> forall i j v, entry m i j = Some v -> (if Nat.eqb i j then is_one v else is_zero v) = true).
Proof.
  intros S. unfold mat_is_one.
  set (p := fun '(i, r) => forallb (fun '(j, v) => if Nat.eqb i j then is_one v else is_zero v) (combine (seq 0 col) r) : bool).
  destruct (all_on (fun _ '(i, r) =>
    obind (value (it_all col (it_enumerate (ref_iter r)) tt
      (pure (fun '(j, v) => if Nat.eqb i j then is_one v else is_zero v)))) (fun b => Ret (tt, b))) p row
    (combine (seq 0 row) m) (it_enumerate (ref_iter m))) as (a' & E).
  - cbn. split; auto. apply S.
  - cbn [items it_enumerate]. exists m. rewrite Nat.sub_0_r. split; auto. apply ref_items. apply S.
  - intros [i r] Hin.
    assert (length r = col) as L. { destruct S as [_ F]. rewrite Forall_forall in F. apply F. eapply in_combine_r; eauto. }
    destruct (all_on (pure (fun '(j, v) => if Nat.eqb i j then is_one v else is_zero v))
      (fun '(j, v) => if Nat.eqb i j then is_one v else is_zero v) col (combine (seq 0 col) r) (it_enumerate (ref_iter r))) as (a' & E).
    + cbn. auto.
    + cbn [items it_enumerate]. exists r. rewrite Nat.sub_0_r. split; auto. apply ref_items. auto.
    + intros [j v] _. reflexivity.
    + rewrite E. reflexivity.
  - exists (forallb p (combine (seq 0 row) m)). rewrite E. split; auto.
    assert (forall (A : Type) (l : list A) k i x, In (i, x) (combine (seq k (length l)) l) <-> exists d, i = k + d /\ nth_error l d = Some x) as IC.
    { clear. induction l as [|y l IH]; intros k i x; cbn.
      - split; [tauto|]. intros ([|d] & _ & H); discriminate.
      - rewrite IH. split.
        + intros [H|(d & -> & H)]; [injection H as -> ->; exists 0; split; auto; lia|exists (Datatypes.S d); split; auto; lia].
        + intros ([|d] & -> & H); [left; cbn in H; injection H as ->; f_equal; lia|right; exists d; split; auto; lia]. }
    assert (length m = row) as Lm by apply S.
    rewrite forallb_forall. split.
    + intros H i j v Hv. unfold entry in Hv. destruct (nth_error m i) as [r|] eqn:Er; [|discriminate].
      assert (In (i, r) (combine (seq 0 row) m)) as Hin by (rewrite <- Lm; apply (proj2 (IC _ m 0 i r)); exists i; auto).
      specialize (H _ Hin). unfold p in H. rewrite forallb_forall in H.
      assert (length r = col) as L. { destruct S as [_ F]. rewrite Forall_forall in F. apply F. eapply nth_error_In; eauto. }
      apply (H (j, v)). rewrite <- L. apply (proj2 (IC _ r 0 j v)). exists j. auto.
    + intros H [i r] Hin.
      assert (length r = col) as L. { destruct S as [_ F]. rewrite Forall_forall in F. apply F. eapply in_combine_r; eauto. }
      rewrite <- Lm in Hin. apply IC in Hin. destruct Hin as (d & -> & Er). unfold p. apply forallb_forall.
      intros [j v] Hin. rewrite <- L in Hin. apply IC in Hin. destruct Hin as (e & -> & Ev). apply H.
      unfold entry. cbn. rewrite Er. auto.
Qed.

Lemma is_zero_ok {T} (is_zero : T -> bool) row col m : shape row col m ->
  exists r, mat_is_zero is_zero row col m = Ret r /\ (r = true <-> forall i j v, entry m i j = Some v -> is_zero v = true).
Proof.
  intros S. unfold mat_is_zero.
  destruct (all_on (fun _ r => obind (value (it_all col (ref_iter r) tt (pure is_zero))) (fun b => Ret (tt, b)))
    (forallb is_zero) row m (ref_iter m)) as (a' & E).
  - cbn. split; auto. apply S.
  - apply ref_items. apply S.
  - intros r Hin. assert (length r = col) as L. { destruct S as [_ F]. rewrite Forall_forall in F. auto. }
    destruct (all_on (pure is_zero) is_zero col r (ref_iter r)) as (a' & E); [cbn; auto|apply ref_items; auto|reflexivity|].
    rewrite E. reflexivity.
  - exists (forallb (forallb is_zero) m). rewrite E. split; auto. rewrite forallb_forall. split.
    + intros H i j v Hv. unfold entry in Hv. destruct (nth_error m i) as [r|] eqn:Er; [|discriminate].
      apply nth_error_In in Er, Hv. specialize (H r Er). rewrite forallb_forall in H. auto.
    + intros H r Hin. apply forallb_forall. intros v Hv. apply In_nth_error in Hin, Hv.
      destruct Hin as (i & Hi), Hv as (j & Hj). apply (H i j). unfold entry. rewrite Hi. auto.
Qed.

(** ** Loops that panic *)
Lemma for_loop_pan {St} (body : St -> nat -> out St) (P : nat -> St -> Prop) k0 : forall len start s,
  P start s ->
  (forall k s, start <= k < start + len -> P k s -> body s k = Pan \/ exists s', body s k = Ret s' /\ P (S k) s') ->
  (forall s, P k0 s -> body s k0 = Pan) -> start <= k0 < start + len ->
  for_loop body start len s = Pan.
Proof.
  induction len as [|len IH]; intros start s H Hb Hk Hr; cbn [for_loop]; [lia|].
  destruct (Hb start s) as [E|(s' & E & H')]; auto; [lia| |]; rewrite E; cbn [obind]; auto.
  apply IH; auto.
  - intros k s2 Hk2. apply Hb. lia.
  - destruct (Nat.eq_dec start k0) as [->|]; [|lia]. rewrite (Hk s) in E by auto. discriminate.
Qed.
