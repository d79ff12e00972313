(** C190: [==], hashes and defaults of vectors, matrices and complex numbers, for any equality of the elements. *)
From Coq Require Import ZArith List Bool Lia.
From Verif Require Import Base StaticIterModel CompoundsSpec VectorModel VectorProofs MatrixModel MatrixProofs PropIndex CompoundEqModel.
Import ListNotations.

(** Two calls that return elements which the elements' [==] finds equal. *)
Definition return_equal {T} (eqb : T -> T -> bool) (r r' : out T) : Prop := exists x y, r = Ret x /\ r' = Ret y /\ eqb x y = true.

Lemma slice_eqb_iff {T} (eqb : T -> T -> bool) a b : slice_eqb eqb a b = true <->
  length a = length b /\ forall i x y, nth_error a i = Some x -> nth_error b i = Some y -> eqb x y = true.
Proof.
  unfold slice_eqb. rewrite andb_true_iff, Nat.eqb_eq. revert b. induction a as [|x a IH]; intros [|y b]; cbn [length elements_eqb]; split; intros [L H]; try discriminate; split; auto.
  - intros [|i] u v E; discriminate.
  - apply andb_prop in H. destruct H as [H1 H2]. assert (length a = length b) as L' by congruence. destruct (proj1 (IH b) (conj L' H2)) as [_ K].
    intros [|i] u v Eu Ev; cbn in Eu, Ev; [congruence|]. apply (K i); auto.
  - rewrite (H 0 x y eq_refl eq_refl). apply IH. split; [congruence|]. intros i u v Eu Ev. apply (H (S i)); auto.
Qed.
Lemma slice_get_iff {T} (eqb : T -> T -> bool) n a b : length a = n -> length b = n ->
  (slice_eqb eqb a b = true <-> forall i, i < n -> return_equal eqb (vec_get a i) (vec_get b i)).
Proof.
  intros La Lb. rewrite slice_eqb_iff. unfold return_equal, vec_get. split.
  - intros [_ H] i Hi. destruct (nth_error a i) as [x|] eqn:Ex; [|apply nth_error_None in Ex; lia]. destruct (nth_error b i) as [y|] eqn:Ey; [|apply nth_error_None in Ey; lia].
    exists x, y. split; [reflexivity|]. split; [reflexivity|]. apply (H i); auto.
  - intros H. split; [congruence|]. intros i x y Ex Ey. assert (i < n) as Hi by (rewrite <- La; apply nth_error_Some; congruence).
    destruct (H i Hi) as (u & v & Eu & Ev & K). rewrite Ex in Eu. rewrite Ey in Ev. congruence.
Qed.

(** Vectors are equal exactly if indexing gives equal elements everywhere. *)
Theorem C190_vectors : forall T (eqb : T -> T -> bool) n a b, length a = n -> length b = n ->
  (vec_eqb eqb a b = true <-> forall i, i < n -> return_equal eqb (vec_get a i) (vec_get b i)).
Proof. intros T eqb n a b. apply slice_get_iff. Qed.
Print Assumptions C190_vectors.

(** So are matrices of one static type. *)
Theorem C190_matrices : forall T (eqb : T -> T -> bool) row col a b, shape row col a -> shape row col b ->
  (mat_eqb eqb a b = true <-> forall i j, i < row -> j < col -> return_equal eqb (mat_get a i j) (mat_get b i j)).
Proof.
  intros T eqb row col a b [La Fa] [Lb Fb]. unfold mat_eqb. rewrite (slice_get_iff (slice_eqb eqb) row a b La Lb). unfold mat_get. rewrite Forall_forall in Fa, Fb. split.
  - intros H i j Hi Hj. destruct (H i Hi) as (r & r' & Er & Er' & K). rewrite Er, Er'. cbn [obind].
    assert (In r a /\ In r' b) as [Ia Ib]. { unfold vec_get in Er, Er'. destruct (nth_error a i) eqn:Ea; [|discriminate]. destruct (nth_error b i) eqn:Eb; [|discriminate]. apply nth_error_In in Ea, Eb. split; congruence. }
    apply (proj1 (slice_get_iff eqb col r r' (Fa r Ia) (Fb r' Ib))); auto.
  - intros H i Hi. unfold return_equal, vec_get in *. destruct (nth_error a i) as [r|] eqn:Ea; [|apply nth_error_None in Ea; lia]. destruct (nth_error b i) as [r'|] eqn:Eb; [|apply nth_error_None in Eb; lia].
    exists r, r'. split; [reflexivity|]. split; [reflexivity|]. pose proof (nth_error_In _ _ Ea) as Ia. pose proof (nth_error_In _ _ Eb) as Ib.
    apply (slice_get_iff eqb col r r' (Fa r Ia) (Fb r' Ib)). intros j Hj. specialize (H i j Hi Hj). rewrite Ea, Eb in H. exact H.
Qed.
Print Assumptions C190_matrices.

(** Dynamic matrices are equal exactly if they have the same shape and indexing gives equal elements everywhere in it. *)
Theorem C190_dynamic : forall T (eqb : T -> T -> bool) dbg row col row' col' a b, dyn_ok row col a -> dyn_ok row' col' b ->
  (dyn_eqb eqb a b = true <-> row = row' /\ col = col' /\
     forall i j, i < row -> j < col -> return_equal eqb (dyn_get dbg a (Z.of_nat i) (Z.of_nat j)) (dyn_get dbg b (Z.of_nat i) (Z.of_nat j))).
Proof.
  intros T eqb dbg row col row' col' a b Oa Ob. pose proof Oa as (Ra & Ca & La & _). pose proof Ob as (Rb & Cb & Lb & _).
  unfold dyn_eqb. rewrite !andb_true_iff, !Z.eqb_eq, Ra, Rb, Ca, Cb. split.
  - intros [[H R] C]. apply Nat2Z.inj in R, C. subst row' col'. split; [reflexivity|]. split; [reflexivity|]. intros i j Hi Hj.
    destruct (proj1 (C91_dyn_partial T row col a i j Oa) dbg Hi Hj) as (x & Ex & ->). destruct (proj1 (C91_dyn_partial T row col b i j Ob) dbg Hi Hj) as (y & Ey & ->).
    exists x, y. split; [reflexivity|]. split; [reflexivity|]. apply slice_eqb_iff in H. apply (proj2 H (i * col + j)); auto.
  - intros (<- & <- & H). split; [|reflexivity]. split; [|reflexivity]. apply slice_eqb_iff. split; [congruence|]. intros k x y Ex Ey.
    assert (k < row * col) as Hk by (rewrite <- La; apply nth_error_Some; congruence).
    assert (col <> 0) as C0 by (intros ->; lia). pose proof (Nat.div_mod k col C0) as E. pose proof (Nat.mod_upper_bound k col C0) as Hj.
    assert (k / col < row) as Hi by (apply Nat.div_lt_upper_bound; lia).
    destruct (proj1 (C91_dyn_partial T row col a _ _ Oa) dbg Hi Hj) as (u & Eu & Gu). destruct (proj1 (C91_dyn_partial T row col b _ _ Ob) dbg Hi Hj) as (v & Ev & Gv).
    destruct (H _ _ Hi Hj) as (u' & v' & Eu' & Ev' & K). replace (k / col * col + k mod col) with k in * by lia. congruence.
Qed.
Print Assumptions C190_dynamic.

(** Turning static matrices into dynamic ones neither makes nor breaks an equality; matrices of different shapes become different. *)
Theorem C190_conversion : forall T (eqb : T -> T -> bool) dbg row col row' col' a b da db, shape row col a -> shape row' col' b ->
  dyn_from dbg row col a = Ret da -> dyn_from dbg row' col' b = Ret db ->
  dyn_eqb eqb da db = Nat.eqb row row' && Nat.eqb col col' && mat_eqb eqb a b.
Proof.
  intros T eqb dbg row col row' col' a b da db Sa Sb Ea Eb.
  assert (forall r c (m : list (list T)) d, dyn_from dbg r c m = Ret d -> d = Dyn (concat m) (Z.of_nat r) (Z.of_nat c)) as K.
  { intros r c m d E. unfold dyn_from, dyn_new in E. destruct (usize dbg (Z.of_nat r * Z.of_nat c)) as [n| |]; cbn [obind] in E; try discriminate. destruct (_ =? n)%Z; congruence. }
  apply K in Ea, Eb. subst da db. unfold dyn_eqb. cbn [data rows cols].
  destruct (Nat.eqb_spec row row') as [->|N].
  2:{ replace (Z.of_nat row =? Z.of_nat row')%Z with false by (symmetry; apply Z.eqb_neq; lia). rewrite andb_false_r. reflexivity. }
  destruct (Nat.eqb_spec col col') as [->|N].
  2:{ replace (Z.of_nat col =? Z.of_nat col')%Z with false by (symmetry; apply Z.eqb_neq; lia). rewrite andb_false_r. reflexivity. }
  rewrite !Z.eqb_refl, !andb_true_r. cbn [andb]. apply eq_true_iff_eq. rewrite (C190_matrices T eqb row' col' a b Sa Sb), slice_eqb_iff. split.
  - intros [_ H] i j Hi Hj. destruct (C91_static T row' col' a i j Sa) as [(_ & _ & x & Ex & Gx)|[B _]]; [|lia]. destruct (C91_static T row' col' b i j Sb) as [(_ & _ & y & Ey & Gy)|[B _]]; [|lia].
    rewrite Gx, Gy. exists x, y. split; [reflexivity|]. split; [reflexivity|]. destruct (C91_row_major T row' col' a i j Sa Hj) as [Ra _]. destruct (C91_row_major T row' col' b i j Sb Hj) as [Rb _].
    apply (H (i * col' + j)); congruence.
  - intros H. destruct (Nat.eq_dec col' 0) as [->|C0].
    + assert (forall m : list (list T), shape row' 0 m -> concat m = []) as Nil.
      { intros m [_ F]. induction F as [|r m Hr F IH]; [reflexivity|]. cbn. destruct r; [exact IH|discriminate]. }
      rewrite (Nil a Sa), (Nil b Sb). split; [reflexivity|]. intros [|i] x y E; discriminate.
    + destruct (C91_row_major T row' col' a 0 0 Sa ltac:(lia)) as [_ La]. destruct (C91_row_major T row' col' b 0 0 Sb ltac:(lia)) as [_ Lb]. split; [congruence|].
      intros k x y Ex Ey. assert (k < row' * col') as Hk by (rewrite <- La; apply nth_error_Some; congruence).
      pose proof (Nat.div_mod k col' C0) as E. pose proof (Nat.mod_upper_bound k col' C0) as Hj. assert (k / col' < row') as Hi by (apply Nat.div_lt_upper_bound; lia).
      destruct (H _ _ Hi Hj) as (u & v & Gu & Gv & Q). destruct (C91_row_major T row' col' a (k / col') (k mod col') Sa Hj) as [Ra _]. destruct (C91_row_major T row' col' b (k / col') (k mod col') Sb Hj) as [Rb _].
      replace (k / col' * col' + k mod col') with k in * by lia. rewrite mat_get_entry in Gu, Gv. rewrite <- Ra, Ex in Gu. rewrite <- Rb, Ey in Gv. congruence.
Qed.
Print Assumptions C190_conversion.

(** Transposing neither makes nor breaks an equality ([z]: the element type has a value). *)
Theorem C190_transpose : forall T (z : T) (eqb : T -> T -> bool) row col a b, shape row col a -> shape row col b ->
  exists a' b', transpose col a = Ret a' /\ transpose col b = Ret b' /\ mat_eqb eqb a' b' = mat_eqb eqb a b.
Proof.
  intros T z eqb row col a b Sa Sb. exists (tabulate col row (fun i j => at_ z a j i)), (tabulate col row (fun i j => at_ z b j i)).
  split; [apply transpose_ok; exact Sa|]. split; [apply transpose_ok; exact Sb|]. apply eq_true_iff_eq.
  rewrite (C190_matrices T eqb row col a b Sa Sb), (C190_matrices T eqb col row) by apply tabulate_shape.
  assert (forall m i j, shape row col m -> i < row -> j < col -> mat_get (tabulate col row (fun i j => at_ z m j i)) j i = mat_get m i j) as G.
  { intros m i j Sm Hi Hj. rewrite mat_get_entry, tabulate_entry by auto. rewrite (mat_get_at z row col m i j Sm Hi Hj). reflexivity. }
  split; intros H i j Hi Hj.
  - rewrite <- (G a i j Sa Hi Hj), <- (G b i j Sb Hi Hj). apply H; auto.
  - rewrite (G a j i Sa Hj Hi), (G b j i Sb Hj Hi). apply H; auto.
Qed.
Print Assumptions C190_transpose.

(** [==] is reflexive, symmetric or transitive if the elements' [==] is. *)
Definition reflexive {A} (e : A -> A -> bool) : Prop := forall x, e x x = true.
Definition symmetric {A} (e : A -> A -> bool) : Prop := forall x y, e x y = true -> e y x = true.
Definition transitive {A} (e : A -> A -> bool) : Prop := forall x y z, e x y = true -> e y z = true -> e x z = true.

Lemma slice_laws {T} (eqb : T -> T -> bool) : (reflexive eqb -> reflexive (slice_eqb eqb)) /\ (symmetric eqb -> symmetric (slice_eqb eqb)) /\ (transitive eqb -> transitive (slice_eqb eqb)).
Proof.
  split; [|split]; intros H.
  - intros a. apply slice_eqb_iff. split; [reflexivity|]. intros i x y Ex Ey. assert (x = y) as -> by congruence. apply H.
  - intros a b E. apply slice_eqb_iff in E. apply slice_eqb_iff. destruct E as [L K]. split; [congruence|]. intros i x y Ex Ey. apply H. apply (K i); auto.
  - intros a b c E1 E2. apply slice_eqb_iff in E1, E2. apply slice_eqb_iff. destruct E1 as [L1 K1], E2 as [L2 K2]. split; [congruence|]. intros i x y Ex Ey.
    destruct (nth_error b i) as [u|] eqn:Eu; [apply (H x u y); [apply (K1 i)|apply (K2 i)]; auto|]. apply nth_error_None in Eu.
    assert (i < length a) by (apply nth_error_Some; congruence). lia.
Qed.
Theorem C190_laws : forall T (eqb : T -> T -> bool),
  (reflexive eqb -> reflexive (vec_eqb eqb) /\ reflexive (mat_eqb eqb) /\ reflexive (dyn_eqb eqb) /\ reflexive (c_eqb eqb)) /\
  (symmetric eqb -> symmetric (vec_eqb eqb) /\ symmetric (mat_eqb eqb) /\ symmetric (dyn_eqb eqb) /\ symmetric (c_eqb eqb)) /\
  (transitive eqb -> transitive (vec_eqb eqb) /\ transitive (mat_eqb eqb) /\ transitive (dyn_eqb eqb) /\ transitive (c_eqb eqb)).
Proof.
  intros T eqb. destruct (slice_laws eqb) as (R & S & Tr). destruct (slice_laws (slice_eqb eqb)) as (R' & S' & Tr'). split; [|split]; intros H; (split; [auto|]); (split; [apply R' || apply S' || apply Tr'; auto|]); split.
  - intros d. unfold dyn_eqb. rewrite (R H), !Z.eqb_refl. reflexivity.
  - intros c. unfold c_eqb. rewrite !H. reflexivity.
  - intros d e. unfold dyn_eqb. rewrite !andb_true_iff, !Z.eqb_eq. intros [[K1 K2] K3]. split; [split; [apply S; auto|congruence]|congruence].
  - intros c d. unfold c_eqb. rewrite !andb_true_iff. intros [K1 K2]. split; apply H; auto.
  - intros d e f. unfold dyn_eqb. rewrite !andb_true_iff, !Z.eqb_eq. intros [[K1 K2] K3] [[K4 K5] K6]. split; [split; [eapply Tr; eauto|congruence]|congruence].
  - intros c d e. unfold c_eqb. rewrite !andb_true_iff. intros [K1 K2] [K3 K4]. split; eapply H; eauto.
Qed.
Print Assumptions C190_laws.

(** Equal vectors hash alike, with every hasher, if equal elements do. *)
Theorem C190_hash : forall T S (eqb : T -> T -> bool) (write_length : nat -> S -> S) (hash : T -> S -> S) a b s,
  (forall x y s, eqb x y = true -> hash x s = hash y s) -> vec_eqb eqb a b = true -> vec_hash write_length hash a s = vec_hash write_length hash b s.
Proof.
  intros T S eqb wl hash a b s H E. unfold vec_eqb, slice_eqb in E. apply andb_prop in E. destruct E as [L E]. apply Nat.eqb_eq in L. unfold vec_hash. rewrite L. generalize (wl (length b) s). clear s.
  revert b L E. induction a as [|x a IH]; intros [|y b] L E s; try discriminate; [reflexivity|]. cbn [elements_eqb] in E. apply andb_prop in E. destruct E as [E1 E2].
  cbn [fold_left]. rewrite (H x y s E1). apply IH; [cbn in L; congruence|exact E2].
Qed.
Print Assumptions C190_hash.

(** A hasher that keeps all it is given. *)
Definition record_length {T} (n : nat) (s : list (nat + T)) : list (nat + T) := s ++ [inl n].
Definition record {T} (x : T) (s : list (nat + T)) : list (nat + T) := s ++ [inr x].

Lemma vec_hash_recorded T (v : list T) s : vec_hash record_length record v s = s ++ inl (length v) :: map inr v.
Proof.
  unfold vec_hash, record_length. assert (H : forall v s, fold_left (fun s x => @record T x s) v s = s ++ map inr v).
  { intros u. induction u as [|x u IH]; intros r; cbn [fold_left map]; [symmetry; apply app_nil_r|].
    rewrite IH. unfold record. rewrite <- app_assoc. reflexivity. }
  rewrite H, <- app_assoc. reflexivity.
Qed.

(** Different vectors give a hasher different input, whatever is hashed after them. *)
Theorem C190_hash_separates : forall T (a b : list T) s rest rest',
  vec_hash record_length record a s ++ rest = vec_hash record_length record b s ++ rest' -> a = b /\ rest = rest'.
Proof.
  intros T a b s rest rest' H. rewrite !vec_hash_recorded, <- !app_assoc in H. apply app_inv_head in H. cbn [app] in H.
  injection H as E H. revert b E H. induction a as [|x a IH]; intros [|y b] E H; cbn [length map app] in *; try discriminate; [auto|].
  injection H as -> H. injection E as E. destruct (IH b E H) as [-> ->]. auto.
Qed.
Print Assumptions C190_hash_separates.

Example C190_hash_separates_demo :
  vec_hash record_length record [7] [] ++ [inr 8] = [inl 1; inr 7; inr 8] /\ vec_hash record_length record [7; 8] [] = [inl 2; inr 7; inr 8].
Proof. split; reflexivity. Qed.

(** The default vector and matrix have the default element everywhere. *)
Theorem C190_default : forall T (d : T) n row col,
  (exists v, vec_default d n = Ret v /\ length v = n /\ forall i, i < n -> vec_get v i = Ret d) /\
  (exists m, mat_default d row col = Ret m /\ shape row col m /\ forall i j, i < row -> j < col -> mat_get m i j = Ret d).
Proof.
  intros T d n row col. split.
  - exists (map (fun _ => d) (seq 0 n)). split; [apply from_fn_ok; reflexivity|]. split; [rewrite map_length, seq_length; reflexivity|].
    intros i Hi. unfold vec_get. rewrite (map_nth_error _ i (seq 0 n) (d := i)); [reflexivity|]. rewrite (nth_error_nth' _ 0) by (rewrite seq_length; exact Hi). rewrite seq_nth by exact Hi. reflexivity.
  - exists (tabulate row col (fun _ _ => d)). split; [unfold mat_default, tabulate; apply from_fn_ok; intros i Hi; apply from_fn_ok; reflexivity|]. split; [apply tabulate_shape|].
    intros i j Hi Hj. rewrite mat_get_entry, tabulate_entry by auto. reflexivity.
Qed.
Print Assumptions C190_default.

(** Equality up to sign, which is coarser than [=]: [[1, -2], [3, 4]] and [[-1, 2], [3, -4]] are equal, as static and as dynamic matrices; the same
    six numbers as 2 by 3 and as 3 by 2 are not. *)
Definition up_to_sign (x y : Z) : bool := (Z.abs x =? Z.abs y)%Z.
Example C190_demo :
  mat_eqb up_to_sign [[1; -2]; [3; 4]]%Z [[-1; 2]; [3; -4]]%Z = true /\ mat_eqb up_to_sign [[1; -2]; [3; 4]]%Z [[-1; 2]; [3; 5]]%Z = false /\
  dyn_from true 2 3 [[1; 2; 3]; [4; 5; 6]]%Z = Ret (Dyn [1; 2; 3; 4; 5; 6]%Z 2 3) /\ dyn_from true 3 2 [[1; 2]; [3; 4]; [5; 6]]%Z = Ret (Dyn [1; 2; 3; 4; 5; 6]%Z 3 2) /\
  dyn_eqb up_to_sign (Dyn [1; 2; 3; 4; 5; 6]%Z 2 3) (Dyn [1; 2; 3; 4; 5; 6]%Z 3 2) = false /\
  dyn_eqb up_to_sign (Dyn [1; 2; 3; 4; 5; 6]%Z 2 3) (Dyn [1; -2; 3; 4; 5; -6]%Z 2 3) = true /\
  shape 2 3 [[1; 2; 3]; [4; 5; 6]]%Z /\ dyn_ok 2 3 (Dyn [1; 2; 3; 4; 5; 6]%Z 2 3) /\
  reflexive up_to_sign /\ symmetric up_to_sign /\ transitive up_to_sign /\
  (forall x y s, up_to_sign x y = true -> Z.add (Z.abs x) (31 * s) = Z.add (Z.abs y) (31 * s)) /\
  vec_hash (fun n s => Z.add (Z.of_nat n) s) (fun x s => Z.add (Z.abs x) (31 * s)) [1; -2]%Z 0%Z = vec_hash (fun n s => Z.add (Z.of_nat n) s) (fun x s => Z.add (Z.abs x) (31 * s)) [-1; 2]%Z 0%Z.
Proof.
  do 6 (split; [vm_compute; reflexivity|]). split; [split; [reflexivity|repeat constructor]|]. split; [repeat split; vm_compute; discriminate|].
  unfold up_to_sign, reflexive, symmetric, transitive. split; [intros x; apply Z.eqb_refl|]. split; [intros x y H; apply Z.eqb_eq in H; apply Z.eqb_eq; congruence|].
  split; [intros x y z H1 H2; apply Z.eqb_eq in H1, H2; apply Z.eqb_eq; congruence|]. split; [intros x y s H; apply Z.eqb_eq in H; rewrite H; reflexivity|vm_compute; reflexivity].
Qed.
(** An element that is not equal to itself, as a NaN, makes the vector so. *)
Example C190_demo_nan : vec_eqb (fun x y : option nat => match x, y with Some x, Some y => Nat.eqb x y | _, _ => false end) [Some 1; None] [Some 1; None] = false.
Proof. reflexivity. Qed.
