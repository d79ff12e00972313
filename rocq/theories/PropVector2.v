(** Properties C116 and C117: constructing, reading and writing vectors and matrices; distances. *)
From Coq Require Import List Bool Arith ZArith Lia Ring Ring_theory.
From Verif Require Import Base StaticIterModel StaticIterSpec StaticIterProofs PropStatic VectorModel CompoundsSpec
  VectorProofs MatrixModel MatrixProofs PropVector.
Import ListNotations.

(** ** C116 *)

(** Every element of [from_scalar(v)] (and of [zeroed()], [default()]) is [v]. *)
Theorem C116_scalar T n (v : T) i : length (vec_scalar n v) = n /\
  vec_get (vec_scalar n v) i = if i <? n then Ret v else Pan.
Proof.
  unfold vec_scalar. split; [apply repeat_length|]. destruct (Nat.ltb_spec i n).
  - apply vec_get_some. rewrite (nth_error_nth' _ v) by (rewrite repeat_length; auto). f_equal. apply nth_repeat.
  - apply vec_get_out. rewrite repeat_length. auto.
Qed.
Print Assumptions C116_scalar.

(** Reading: from an array and back, by position; out of range panics. *)
Theorem C116_get T (arr : list T) i :
  vec_into_array (vec_from_array arr) = arr /\ vec_from_array (vec_into_array arr) = arr /\
  (forall v, nth_error arr i = Some v -> vec_get (vec_from_array arr) i = Ret v) /\
  (length arr <= i -> vec_get (vec_from_array arr) i = Pan).
Proof. repeat split; [apply vec_get_some|apply vec_get_out]. Qed.
Print Assumptions C116_get.

(** Writing changes the one element; out of range panics. *)
Theorem C116_set T (a : list T) i v :
  (i < length a -> exists a', vec_set a i v = Ret a' /\ length a' = length a /\ vec_get a' i = Ret v /\
     forall j, j <> i -> vec_get a' j = vec_get a j) /\
  (length a <= i -> vec_set a i v = Pan).
Proof.
  unfold vec_set. split; intros H.
  - rewrite (proj2 (Nat.ltb_lt _ _) H). eexists. split; [reflexivity|].
    assert (forall j, nth_error (upd a i v) j = if j =? i then Some v else nth_error a j) as U by (intros; apply nth_upd; auto).
    split; [|split].
    + clear. revert i. induction a; intros [|i]; cbn; auto.
    + apply vec_get_some. rewrite U, Nat.eqb_refl. auto.
    + intros j Hj. unfold vec_get. rewrite U. destruct (Nat.eqb_spec j i); congruence.
  - rewrite (proj2 (Nat.ltb_ge _ _) H). auto.
Qed.
Print Assumptions C116_set.

(** The named axes are the elements in order, for vectors of two, three and four elements. *)
Theorem C116_axes T (x y z w v : T) :
  (get_x (from_xy x y) = Ret x /\ get_y (from_xy x y) = Ret y /\
   set_x (from_xy x y) v = Ret (from_xy v y) /\ set_y (from_xy x y) v = Ret (from_xy x v)) /\
  (get_x (from_xyz x y z) = Ret x /\ get_y (from_xyz x y z) = Ret y /\ get_z (from_xyz x y z) = Ret z /\
   set_x (from_xyz x y z) v = Ret (from_xyz v y z) /\ set_y (from_xyz x y z) v = Ret (from_xyz x v z) /\
   set_z (from_xyz x y z) v = Ret (from_xyz x y v)) /\
  (get_x (from_xyzw x y z w) = Ret x /\ get_y (from_xyzw x y z w) = Ret y /\
   get_z (from_xyzw x y z w) = Ret z /\ get_w (from_xyzw x y z w) = Ret w /\
   set_x (from_xyzw x y z w) v = Ret (from_xyzw v y z w) /\ set_y (from_xyzw x y z w) v = Ret (from_xyzw x v z w) /\
   set_z (from_xyzw x y z w) v = Ret (from_xyzw x y v w) /\ set_w (from_xyzw x y z w) v = Ret (from_xyzw x y z v)) /\
  vec_into_array (from_xy x y) = [x; y] /\ vec_into_array (from_xyz x y z) = [x; y; z] /\
  vec_into_array (from_xyzw x y z w) = [x; y; z; w].
Proof. repeat split. Qed.
Print Assumptions C116_axes.

(** [into_row] and [into_column]. *)
Theorem C116_row_column T n (a : list T) : length a = n ->
  shape 1 n (into_row a) /\ (forall j, entry (into_row a) 0 j = nth_error a j) /\
  exists c, into_column n a = Ret c /\ shape n 1 c /\ (forall j, entry c j 0 = nth_error a j).
Proof.
  intros L. split; [|split].
  - split; auto. constructor; auto.
  - reflexivity.
  - exists (map (fun i => [i]) a). split; [|split].
    + assert (items n 0 (it_map (into_iter a) (pure (fun i : T => [i])) tt) (map (fun i => [i]) a)) as I.
      { cbn. exists a. split; [apply into_items; auto|]. clear. induction a; cbn; [constructor|]. econstructor; [reflexivity|auto]. }
      unfold into_column. destruct (C84_collect_items _ n _ _ I) as (a' & E). rewrite E. auto.
    + split; [rewrite map_length; auto|]. apply Forall_forall. intros r Hr. apply in_map_iff in Hr. destruct Hr as (x & <- & _). auto.
    + intros j. unfold entry. rewrite nth_error_map. destruct (nth_error a j); auto.
Qed.
Print Assumptions C116_row_column.

Section Ring.
Context {R : Type} (rO rI : R) (radd rmul rsub : R -> R -> R) (ropp : R -> R).
Context (RT : ring_theory rO rI radd rmul rsub ropp (@eq R)).
Add Ring Rring2 : RT.
(** Element operators that do not panic; [pow] squares when asked to. *)
Context (pow : R -> R -> out R).
Hypothesis pow_two : forall x, pow x (radd rI rI) = Ret (rmul x x).
Let dist2 (a b : list R) : out R :=
  distance_squared rO rI (fun x y => Ret (radd x y)) (fun x y => Ret (rsub x y)) pow a b.

Lemma dist2_zip a b : dist2 a b =
  zip_fold (fun x y => Ret (radd x y)) (fun x y => Ret (rmul (rsub x y) (rsub x y))) a b rO.
Proof.
  unfold dist2, distance_squared. cbn [obind]. set (acc := rO). clearbody acc. revert b acc.
  induction a as [|x a IH]; intros [|y b] acc; cbn [zip_fold obind]; auto. rewrite pow_two. cbn [obind]. apply IH.
Qed.

(** [distance_squared] is the sum of the squared differences; symmetric; 0 from a vector to
    itself; unchanged by a translation. *)
Theorem C116_distance a b c : Forall3 (fun x y z => z = rmul (rsub x y) (rsub x y)) a b c ->
  dist2 a b = Ret (sum_of rO radd c) /\ dist2 b a = dist2 a b /\ dist2 a a = Ret rO /\
  forall t s u, Forall3 (fun x k z => z = radd x k) a t s -> Forall3 (fun y k z => z = radd y k) b t u ->
    dist2 s u = dist2 a b.
Proof.
  intros F. assert (forall acc, zip_fold (fun x y => Ret (radd x y)) (fun x y => Ret (rmul (rsub x y) (rsub x y))) a b acc
                    = Ret (sum_of acc radd c)) as K.
  { induction F as [|x y z a b c E F IH]; intros acc; cbn; auto. rewrite IH, E. auto. }
  rewrite !dist2_zip, K. split; auto. split; [|split].
  - clear K. generalize rO. induction F as [|x y z a b c E F IH]; intros acc; cbn; auto. rewrite IH.
    unfold sum_of. cbn. do 2 f_equal. rewrite E. ring.
  - clear F K. induction a as [|x a IH]; cbn; auto. replace (radd rO (rmul (rsub x x) (rsub x x))) with rO by ring. auto.
  - intros t s u Hs Hu. rewrite dist2_zip. clear K. generalize rO. revert t s u Hs Hu.
    induction F as [|x y z a b c E F IH]; intros t s u Hs Hu acc; inversion Hs; subst; inversion Hu; subst; cbn; auto.
    match goal with P : Forall3 _ a _ _, Q : Forall3 _ b _ _ |- _ => rewrite (IH _ _ _ P Q) end. unfold sum_of. cbn. do 2 f_equal. ring.
Qed.

End Ring.
Print Assumptions C116_distance.

Example C116_demo : let pw := fun x n : Z => if (n =? 2)%Z then Ret (x * x)%Z else Pan in
  (forall x, pw x 2%Z = Ret (x * x)%Z) /\
  Forall3 (fun x y z => z = (x - y) * (x - y))%Z [1; 2]%Z [4; 6]%Z [9; 16]%Z /\
  distance_squared 0%Z 1%Z (fun x y => Ret (x + y)%Z) (fun x y => Ret (x - y)%Z) pw [1; 2]%Z [4; 6]%Z = Ret 25%Z /\
  into_column 2 [5; 6] = Ret [[5]; [6]] /\ vec_set [1; 2; 3] 1 9 = Ret [1; 9; 3].
Proof. split; [reflexivity|]. split; [repeat constructor|]. repeat split; reflexivity. Qed.

(** ** C117 *)

(** Row [i] of [from_rows] is the vector [i], column [j] of [from_columns] the vector [j]. *)
Theorem C117_from_rows T row col (vecs : list (list T)) : shape row col vecs ->
  exists m, from_rows row vecs = Ret m /\ shape row col m /\
    forall i j v, nth_error vecs i = Some v -> entry m i j = nth_error v j.
Proof.
  intros S. exists vecs. split; [|split; auto].
  - assert (items row 0 (it_map (into_iter vecs) (pure (fun v : list T => v)) tt) vecs) as I.
    { cbn. exists vecs. split; [apply into_items; apply S|]. clear. induction vecs; [constructor|]. econstructor; [reflexivity|auto]. }
    unfold from_rows. destruct (C84_collect_items _ row _ _ I) as (a' & E). rewrite E. auto.
  - intros i j v E. unfold entry. rewrite E. auto.
Qed.
Print Assumptions C117_from_rows.

Theorem C117_from_columns T row col (vecs : list (list T)) : shape col row vecs ->
  exists m, from_columns row vecs = Ret m /\ shape row col m /\
    (forall i j v, nth_error vecs j = Some v -> entry m i j = nth_error v i) /\
    obind (from_rows col vecs) (transpose row) = Ret m.
Proof.
  intros S. destruct (C117_from_rows T col row vecs S) as (m' & E' & _). 
  assert (m' = vecs) as ->.
  { assert (items col 0 (it_map (into_iter vecs) (pure (fun v : list T => v)) tt) vecs) as I.
    { cbn. exists vecs. split; [apply into_items; apply S|]. clear. induction vecs; [constructor|]. econstructor; [reflexivity|auto]. }
    unfold from_rows in E'. destruct (C84_collect_items _ col _ _ I) as (a' & E). rewrite E in E'. cbn in E'. congruence. }
  rewrite E'. cbn [obind]. change (from_columns row vecs) with (transpose row vecs).
  destruct (Nat.eq_dec row 0) as [->|H0].
  { (* no element: a default is not needed *)
    exists []. assert (transpose 0 vecs = Ret []) as -> by reflexivity.
    split; auto. split; [split; auto|]. split; auto.
    intros i j v E. assert (length v = 0) as Hv by (destruct S as [_ F]; eapply Forall_forall in F; [exact F|eapply nth_error_In; eauto]).
    destruct v; [|discriminate]. unfold entry. destruct i; auto. }
  destruct (Nat.eq_dec col 0) as [->|H1].
  { destruct S as [L _]. destruct vecs; [|discriminate].
    exists (repeat [] row). assert (transpose row ([] : list (list T)) = Ret (repeat [] row)) as ->.
    { unfold transpose. assert (items row 0 (zip_all ([] : list (list T))) (repeat [] row)) as I.
      { apply items_all. exists []. split; [constructor|]. rewrite Nat.sub_0_r. split; [apply repeat_length|].
        intros i r E. apply nth_error_In, repeat_spec in E. subst. constructor. }
      destruct (C84_collect_items _ row _ _ I) as (a' & E). rewrite E. auto. }
    split; auto. split; [split; [apply repeat_length|]|split; auto].
    - apply Forall_forall. intros r Hr. apply repeat_spec in Hr. subst. auto.
    - intros i [|j] v E; discriminate. }
  destruct (entry_in col row vecs 0 0 S) as (z & _); try lia.
  rewrite (transpose_ok z _ _ _ S). eexists. split; [reflexivity|]. split; [apply tabulate_shape|]. split; auto.
  intros i j v E. assert (j < col) as Hj by (destruct S as [L _]; rewrite <- L; apply nth_error_Some; congruence).
  assert (length v = row) as Hv by (destruct S as [_ F]; eapply Forall_forall in F; [exact F|eapply nth_error_In; eauto]).
  destruct (Nat.lt_ge_cases i row) as [Hi|Hi].
  - rewrite tabulate_entry by auto. rewrite <- (entry_at z _ _ _ _ _ S) by auto. unfold entry. rewrite E. auto.
  - rewrite (entry_out row col) by (auto using tabulate_shape; left; auto). symmetry. apply nth_error_None. lia.
Qed.
Print Assumptions C117_from_columns.

(** [diag] lists the diagonal. *)
Theorem C117_diag T n (m : list (list T)) : shape n n m ->
  exists d, diag n m = Ret d /\ length d = n /\ forall i, i < n -> nth_error d i = entry m i i.
Proof.
  intros S. destruct n as [|n].
  { exists []. split; [reflexivity|]. split; auto. intros; lia. }
  destruct (entry_in (Datatypes.S n) (Datatypes.S n) m 0 0 S) as (z & _); try lia.
  exists (map (fun i => at_ z m i i) (seq 0 (Datatypes.S n))). split; [|split].
  - apply from_fn_ok. intros i Hi. apply (mat_get_at z _ _ _ _ _ S); auto.
  - rewrite map_length, seq_length. auto.
  - intros i Hi. rewrite nth_error_map_seq, (proj2 (Nat.ltb_lt _ _) Hi). symmetry. apply (entry_at z _ _ _ _ _ S); auto.
Qed.
Print Assumptions C117_diag.

Example C117_demo : shape 2 3 [[1; 2; 3]; [4; 5; 6]] /\
  from_rows 2 [[1; 2; 3]; [4; 5; 6]] = Ret [[1; 2; 3]; [4; 5; 6]] /\
  from_columns 3 [[1; 2; 3]; [4; 5; 6]] = Ret [[1; 4]; [2; 5]; [3; 6]] /\
  diag 2 [[1; 2]; [3; 4]] = Ret [1; 4].
Proof. split; [split; auto; repeat constructor|]. repeat split; reflexivity. Qed.
