(** Property C158: vectors, matrices and complex numbers of BigInts. *)
From Coq Require Import ZArith List Bool Lia Permutation.
From Verif Require Import Base Spec BitSliceModel InternModel BigIntModel BigIntSpec BigIntProofs BigIntText BigIntRun PropBigInt
  BigIntExprModel PropBigIntExpr VectorModel BigIntCompoundModel.
Import ListNotations.
Local Open Scope Z_scope.

(** ** Specification *)

(** BigInts [as_] hold the integers [xs]. *)
Definition hold (st : store (list Z)) (as_ xs : list Z) : Prop := Forall2 (fun a x => denotes st a x /\ a <> neg_zero) as_ xs.

(** [m] returns a value made of new BigInts, listed by [parts], of which [good] holds; the other BigInts [hs] keep their values, and
    every reference count is again the number of BigInts that exist: whatever else there was before is gone. *)
Definition computes {A} (P : Z) (hs : list Z) (m : M A) (st : store (list Z)) (parts : A -> list Z)
  (good : store (list Z) -> A -> Prop) : Prop :=
  exists r st', m st = Ok (r, st') /\ consistent P st' (parts r ++ hs) /\ keeps st st' hs /\ good st' r.

Fixpoint map2 {A B C} (f : A -> B -> C) (a : list A) (b : list B) : list C :=
  match a, b with x :: a', y :: b' => f x y :: map2 f a' b' | _, _ => [] end.

(** ** Proofs *)

(** A list of handles with their values, on top of the others. *)
Definition now (P : Z) (st0 : store (list Z)) (hs : list Z) (st : store (list Z)) (g : list (Z * Z)) : Prop :=
  consistent P st (map fst g ++ hs) /\ keeps st0 st hs /\ Forall (fun p => denotes st (fst p) (snd p) /\ fst p <> neg_zero) g.

Lemma live_app_le a b : (live (a ++ b) <= length a + live b)%nat.
Proof. induction a as [|h a IH]; cbn [app length]; [lia|]. pose proof (live_cons_le h (a ++ b)). lia. Qed.

Section Steps.
Variables (dbg : bool) (P : Z) (st0 : store (list Z)) (hs : list Z).
Notation now := (now P st0 hs).

Lemma now_perm st g g' : Permutation g g' -> now st g -> now st g'.
Proof.
  intros Q (H1 & H2 & H3). split; [|split]; auto.
  - eapply con_perm; [|exact H1]. apply Permutation_app_tail, Permutation_map, Q.
  - eapply Permutation_Forall; eauto.
Qed.
Lemma now_in st g a x : now st g -> In (a, x) g -> proper st (map fst g ++ hs) a x.
Proof.
  intros (H1 & H2 & H3) Q. rewrite Forall_forall in H3. destruct (H3 _ Q) as [D N]. split; auto.
  apply in_or_app. left. apply in_map_iff. exists (a, x). auto.
Qed.
Lemma now_keeps st st' g : now st g -> keeps st st' (map fst g ++ hs) ->
  keeps st0 st' hs /\ Forall (fun p => denotes st' (fst p) (snd p) /\ fst p <> neg_zero) g.
Proof.
  intros (H1 & H2 & H3) K. split.
  - eapply keeps_trans; [exact H2|]. eapply keeps_incl; [exact K|]. apply incl_appr, incl_refl.
  - rewrite Forall_forall in *. intros p Q. destruct (H3 p Q). split; auto. apply K; auto. apply in_or_app. left. apply in_map, Q.
Qed.
Lemma now_room st g : now st g -> Z.of_nat (length g) + Z.of_nat (live hs) <= P -> room P (map fst g ++ hs) 0.
Proof. intros _ H. unfold room. pose proof (live_app_le (map fst g) hs). rewrite map_length in *. lia. Qed.

Lemma now_clone st g a x : now st g -> In (a, x) g -> Z.of_nat (length g) + Z.of_nat (live hs) <= P ->
  exists st', bi_clone dbg a st = Ok (a, st') /\ now st' ((a, x) :: g).
Proof.
  intros H Q L. destruct (now_in _ _ _ _ H Q) as (I & D & N).
  destruct (clone_spec dbg P st (map fst g ++ hs) a (proj1 H) (now_room _ _ H L) I) as (st' & E & C & K).
  exists st'. split; auto. destruct (now_keeps _ _ _ H K). split; [exact C|]. split; auto.
Qed.
Lemma now_after st st' u g : now st (u ++ g) -> keeps st st' (map fst g ++ hs) ->
  keeps st0 st' hs /\ Forall (fun p => denotes st' (fst p) (snd p) /\ fst p <> neg_zero) g.
Proof.
  intros (H1 & H2 & H3) K. apply Forall_app in H3. destruct H3 as [_ H3]. split.
  - eapply keeps_trans; [exact H2|]. eapply keeps_incl; [exact K|]. apply incl_appr, incl_refl.
  - rewrite Forall_forall in *. intros p Q. destruct (H3 p Q). split; auto. apply K; auto. apply in_or_app. left. apply in_map, Q.
Qed.
Lemma now_drop st g a x : now st ((a, x) :: g) -> exists st', bi_drop a st = Ok (tt, st') /\ now st' g.
Proof.
  intros H. destruct (drop_spec P st (map fst g ++ hs) a (proj1 H)) as (st' & E & C & K). exists st'. split; auto.
  destruct (now_after _ _ [(a, x)] _ H K). split; auto.
Qed.
Lemma now_yields st u g m v : now st (u ++ g) -> yields P (map fst g ++ hs) m st v ->
  exists c st', m st = Ok (c, st') /\ now st' ((c, v) :: g).
Proof.
  intros H (c & st' & E & C & K & D & N). exists c, st'. split; auto. destruct (now_after _ _ _ _ H K). split; auto.
Qed.
Lemma now_val o st g a b x y v : now st ((a, x) :: (b, y) :: g) -> Z.of_nat (length g) + 2 + Z.of_nat (live hs) <= P -> does dbg o x y v ->
  exists c st', by_val (operate dbg o) a b st = Ok (c, st') /\ now st' ((c, v) :: g).
Proof.
  intros H L R. apply (now_yields st [(a, x); (b, y)]); auto. apply (C45_owned_forms dbg o P).
  apply R; auto; [exact (proj1 H)| | |].
  - apply (now_room st ((a, x) :: (b, y) :: g) H). cbn [length]. lia.
  - apply (now_in st ((a, x) :: (b, y) :: g) a x H). left; auto.
  - apply (now_in st ((a, x) :: (b, y) :: g) b y H). right; left; auto.
Qed.
Lemma now_val_ref o st g a b x y v : now st ((a, x) :: g) -> proper st (a :: map fst g ++ hs) b y ->
  Z.of_nat (length g) + 1 + Z.of_nat (live hs) <= P -> does dbg o x y v ->
  exists c st', by_val_ref (operate dbg o) a b st = Ok (c, st') /\ now st' ((c, v) :: g).
Proof.
  intros H I L R. apply (now_yields st [(a, x)]); auto. apply (C45_owned_forms dbg o P).
  apply R; auto; [exact (proj1 H)| |].
  - apply (now_room st ((a, x) :: g) H). cbn [length]. lia.
  - apply (now_in st ((a, x) :: g) a x H). left; auto.
Qed.
Lemma now_assign o st g a b x y v : now st ((a, x) :: (b, y) :: g) -> Z.of_nat (length g) + 2 + Z.of_nat (live hs) <= P -> does dbg o x y v ->
  exists c st', assign_val (operate dbg o) a b st = Ok (c, st') /\ now st' ((c, v) :: g).
Proof.
  intros H L R.
  destruct (now_val_ref o st ((b, y) :: g) a b x y v) as (c & st1 & E1 & H1); auto;
    [apply (now_in st ((a, x) :: (b, y) :: g) b y H); right; left; auto|cbn [length]; lia|].
  destruct (now_drop st1 ((c, v) :: g) b y) as (st2 & E2 & H2); [eapply now_perm; [apply perm_swap|exact H1]|].
  exists c, st2. split; auto. unfold assign_val, by_val_ref, mbind in *. destruct (operate dbg o a b st) as [[c' st']| |]; try discriminate.
  cbn [bind] in *. destruct (bi_drop a st') as [[u st'']| |]; try discriminate. cbn [bind ret] in *.
  injection E1 as -> ->. rewrite E2. reflexivity.
Qed.
Lemma now_frame st g b y : now st g -> proper st0 hs b y -> proper st (map fst g ++ hs) b y.
Proof. intros (_ & K & _) (I & D & N). split; [apply in_or_app; auto|]. split; auto. Qed.

(** A call for every element, each of which uses up the handles [own]. *)
Lemma now_each {G A B} (h : G -> A) (f : A -> M B) (own : G -> list (Z * Z)) (parts : B -> list Z) (want : G -> list Z) (need : Z) : forall l st g,
  (forall x st g', In x l -> now st (own x ++ g') -> Z.of_nat (length (own x ++ g')) + need + Z.of_nat (live hs) <= P -> incl g g' ->
    exists y st' q, f (h x) st = Ok (y, st') /\ map fst q = parts y /\ map snd q = want x /\ now st' (q ++ g')) ->
  now st (concat (map own l) ++ g) ->
  Z.of_nat (length (concat (map own l))) + Z.of_nat (length (concat (map want l))) + Z.of_nat (length g) + need + Z.of_nat (live hs) <= P ->
  exists ys st' q, each f (map h l) st = Ok (ys, st') /\ map fst q = concat (map parts ys) /\ map snd q = concat (map want l) /\ now st' (q ++ g) /\
    Forall2 (fun y x => length (parts y) = length (want x)) ys l.
Proof.
  induction l as [|x l IH]; intros st g H N L; cbn [each map concat app] in *.
  - exists [], st, []. split; [reflexivity|]. cbn. auto.
  - rewrite !app_length in L. rewrite <- app_assoc in N.
    destruct (H x st (concat (map own l) ++ g)) as (y & st1 & q1 & E1 & F1 & W1 & N1); [left; reflexivity|exact N| | |].
    { rewrite !app_length. lia. }
    { apply incl_appr, incl_refl. }
    assert (length q1 = length (want x)) as Lq by (rewrite <- W1, map_length; auto).
    assert (length (parts y) = length (want x)) as Lp by (rewrite <- F1, map_length; auto).
    destruct (IH st1 (q1 ++ g)) as (ys & st2 & q2 & E2 & F2 & W2 & N2 & Fo).
    { intros x' st' g' I N' L' G'. apply (H x' st' g'); [right; exact I|exact N'|exact L'|]. intros p Q. apply G'. apply in_or_app. auto. }
    { eapply now_perm; [|exact N1]. rewrite !app_assoc. apply Permutation_app_tail, Permutation_app_comm. }
    { rewrite app_length. lia. }
    exists (y :: ys), st2, (q1 ++ q2). split; [unfold mbind; rewrite E1; cbn [bind]; rewrite E2; reflexivity|].
    rewrite !map_app, F1, F2, W1, W2. split; [reflexivity|]. split; [reflexivity|]. split; [|constructor; auto].
    eapply now_perm; [|exact N2]. rewrite !app_assoc. apply Permutation_app_tail, Permutation_app_comm.
Qed.
Lemma now_drop_all l : forall st g, now st (l ++ g) -> exists st', drop_all (map fst l) st = Ok (tt, st') /\ now st' g.
Proof.
  induction l as [|[a x] l IH]; intros st g N; cbn [drop_all map fst app] in *; [exists st; auto|].
  destruct (now_drop _ _ _ _ N) as (st1 & E1 & N1). destruct (IH _ _ N1) as (st2 & E2 & N2).
  exists st2. split; auto. unfold mbind. rewrite E1. exact E2.
Qed.
End Steps.

Lemma Forall2_len {A B} (R : A -> B -> Prop) l r : Forall2 R l r -> length l = length r.
Proof. induction 1; cbn; auto. Qed.
Lemma hold_pairs st a xs : hold st a xs -> exists g, map fst g = a /\ map snd g = xs /\
  Forall (fun p => denotes st (fst p) (snd p) /\ fst p <> neg_zero) g.
Proof.
  induction 1 as [|a x as_ xs H F (g & G1 & G2 & G3)]; [exists []; auto|]. exists ((a, x) :: g). cbn [map fst snd].
  split; [congruence|]. split; [congruence|]. constructor; auto.
Qed.
Lemma pairs_hold st g : Forall (fun p => denotes st (fst p) (snd p) /\ fst p <> neg_zero) g -> hold st (map fst g) (map snd g).
Proof. unfold hold. induction 1; cbn [map]; constructor; auto. Qed.
Lemma concat_single {A B} (f : A -> B) l : concat (map (fun x => [f x]) l) = map f l.
Proof. induction l; cbn; congruence. Qed.
Lemma concat_single_id {A} (l : list A) : concat (map (fun x => [x]) l) = l.
Proof. rewrite concat_single. apply map_id. Qed.
Lemma now_start P st hs g : consistent P st (map fst g ++ hs) -> Forall (fun p => denotes st (fst p) (snd p) /\ fst p <> neg_zero) g ->
  now P st hs st g.
Proof. intros C F. split; auto. split; auto. apply keeps_refl. Qed.

Lemma combine_pairs {A B C D} (g : list (A * B)) (k : list (C * D)) :
  map (fun p => (fst (fst p), fst (snd p))) (combine g k) = combine (map fst g) (map fst k).
Proof. revert k. induction g as [|x g IH]; intros [|y k]; cbn; auto. f_equal. apply IH. Qed.
Lemma combine_map2 {A B} (f : B -> B -> B) (g k : list (A * B)) :
  map (fun p => f (snd (fst p)) (snd (snd p))) (combine g k) = map2 f (map snd g) (map snd k).
Proof. revert k. induction g as [|x g IH]; intros [|y k]; cbn; auto. f_equal. apply IH. Qed.
Lemma combine_own {A} (g k : list A) : length g = length k ->
  Permutation (concat (map (fun p => [fst p; snd p]) (combine g k))) (g ++ k).
Proof.
  revert k. induction g as [|x g IH]; intros [|y k] L; try discriminate; cbn; auto. injection L as L.
  constructor. etransitivity; [|apply Permutation_middle]. constructor. apply IH, L.
Qed.
Lemma combine_Forall2 {A B} (R : B -> B -> Prop) (g k : list (A * B)) : Forall2 R (map snd g) (map snd k) ->
  forall p, In p (combine g k) -> R (snd (fst p)) (snd (snd p)).
Proof.
  revert k. induction g as [|x g IH]; intros [|y k] F p; cbn; try contradiction. cbn in F. inversion F; subst.
  intros [<-|I]; [auto|]. eapply IH; eauto.
Qed.
Lemma concat_single' {A B} (f : A -> B) l : concat (map (fun x => [f x]) l) = map f l.
Proof. apply concat_single. Qed.

Lemma two_lists P st hs a b xs ys : consistent P st (a ++ b ++ hs) -> hold st a xs -> hold st b ys ->
  exists g k, map fst g = a /\ map snd g = xs /\ map fst k = b /\ map snd k = ys /\ now P st hs st (g ++ k).
Proof.
  intros C Ha Hb. destruct (hold_pairs _ _ _ Ha) as (g & G1 & G2 & G3). destruct (hold_pairs _ _ _ Hb) as (k & K1 & K2 & K3).
  exists g, k. repeat (split; [assumption|]). apply now_start; [|apply Forall_app; auto]. rewrite map_app, <- app_assoc. congruence.
Qed.
Lemma finish {A} P hs (m : M A) st parts (good : _ -> _ -> Prop) r st' q : m st = Ok (r, st') -> now P st hs st' (q ++ []) -> map fst q = parts r ->
  (hold st' (parts r) (map snd q) -> good st' r) -> computes P hs m st parts good.
Proof.
  rewrite app_nil_r. intros E (C & K & F) Q G. exists r, st'. split; auto. rewrite <- Q. split; auto. split; auto.
  apply G. rewrite <- Q. apply pairs_hold, F.
Qed.

Section Operations.
Variables (dbg : bool) (o : operator) (V : Z -> Z -> Z) (P : Z) (st0 : store (list Z)) (hs : list Z).
Notation now := (now P st0 hs).

(** What a binary operator that uses up both operands does. *)
Definition binary (m : Z -> Z -> M Z) : Prop := forall st g a b x y, now st ((a, x) :: (b, y) :: g) ->
  Z.of_nat (length g) + 2 + Z.of_nat (live hs) <= P -> does dbg o x y (V x y) ->
  exists c st', m a b st = Ok (c, st') /\ now st' ((c, V x y) :: g).

Lemma now_zip m g k st g' : binary m -> now st ((g ++ k) ++ g') ->
  3 * Z.of_nat (length g) + Z.of_nat (length g') + Z.of_nat (live hs) <= P ->
  Forall2 (fun x y => does dbg o x y (V x y)) (map snd g) (map snd k) ->
  exists c st' q, each (fun '(l, r) => m l r) (combine (map fst g) (map fst k)) st = Ok (c, st') /\ map fst q = c /\
    map snd q = map2 V (map snd g) (map snd k) /\ now st' (q ++ g').
Proof.
  intros Hm N R F.
  assert (length g = length k) as L by (apply Forall2_len in F; rewrite !map_length in F; auto).
  set (h := fun p : (Z * Z) * (Z * Z) => (fst (fst p), fst (snd p))).
  set (own := fun p : (Z * Z) * (Z * Z) => [fst p; snd p]). set (want := fun p : (Z * Z) * (Z * Z) => [V (snd (fst p)) (snd (snd p))]).
  assert (now st (concat (map own (combine g k)) ++ g')) as N'.
  { eapply now_perm; [symmetry; apply Permutation_app_tail, combine_own, L|exact N]. }
  destruct (now_each P st0 hs h (fun '(l, r) => m l r) own (fun c => [c]) want 0 (combine g k) st g') as (c & st' & q & E & Q1 & Q2 & Nq & _); auto.
  { intros [[a x] [b y]] st1 g1 I N1 L1 _. cbn [own fst snd app length] in *. destruct (Hm st1 g1 a b x y N1) as (c & st' & E & N2).
    { cbn [length] in L1. lia. }
    { apply (combine_Forall2 (fun x y => does dbg o x y (V x y)) g k F ((a, x), (b, y)) I). }
    exists c, st', [(c, V x y)]. auto. }
  { unfold own, want. rewrite (Permutation_length (combine_own g k L)), app_length. rewrite concat_single', map_length, combine_length, L, Nat.min_id.
    cbn [length]. lia. }
  rewrite concat_single_id in Q1. unfold h in E. rewrite combine_pairs in E. exists c, st', q. split; auto. split; auto. split; auto.
  rewrite Q2. unfold want. rewrite (concat_single' (fun p => V (snd (fst p)) (snd (snd p)))). apply combine_map2.
Qed.
Lemma binary_val : binary (by_val (operate dbg o)).
Proof. intros st g a b x y. apply now_val. Qed.
Lemma binary_assign : binary (assign_val (operate dbg o)).
Proof. intros st g a b x y. apply now_assign. Qed.

Lemma now_zip_ref g k st g' : now st (g ++ g') -> Forall (fun p => proper st0 hs (fst p) (snd p)) k ->
  2 * Z.of_nat (length g) + Z.of_nat (length g') + Z.of_nat (live hs) <= P ->
  Forall2 (fun x y => does dbg o x y (V x y)) (map snd g) (map snd k) ->
  exists c st' q, each (fun '(l, r) => by_val_ref (operate dbg o) l r) (combine (map fst g) (map fst k)) st = Ok (c, st') /\ map fst q = c /\
    map snd q = map2 V (map snd g) (map snd k) /\ now st' (q ++ g').
Proof.
  intros N Hk R F.
  assert (length g = length k) as L by (apply Forall2_len in F; rewrite !map_length in F; auto).
  set (h := fun p : (Z * Z) * (Z * Z) => (fst (fst p), fst (snd p))).
  set (own := fun p : (Z * Z) * (Z * Z) => [fst p]). set (want := fun p : (Z * Z) * (Z * Z) => [V (snd (fst p)) (snd (snd p))]).
  assert (forall (g k : list (Z * Z)), length g = length k -> map fst (combine g k) = g) as Hfst.
  { induction g0 as [|x0 g0 IH]; intros [|y0 k0] L0; try discriminate; cbn; auto. f_equal. apply IH. injection L0 as L0. auto. }
  destruct (now_each P st0 hs h (fun '(l, r) => by_val_ref (operate dbg o) l r) own (fun c => [c]) want 0 (combine g k) st g') as (c & st' & q & E & Q1 & Q2 & Nq & _); auto.
  { intros [[a x] [b y]] st1 g1 I N1 L1 _. cbn [own fst snd app length] in *. destruct (now_val_ref dbg P st0 hs o st1 g1 a b x y (V x y) N1) as (c & st' & E & N2).
    { apply (now_frame P st0 hs st1 ((a, x) :: g1) b y N1). rewrite Forall_forall in Hk. apply (Hk (b, y)). eapply in_combine_r; eauto. }
    { cbn [length] in L1. lia. }
    { apply (combine_Forall2 (fun x y => does dbg o x y (V x y)) g k F ((a, x), (b, y)) I). }
    exists c, st', [(c, V x y)]. auto. }
  { unfold own. rewrite (concat_single' fst), Hfst; auto. }
  { unfold own, want. rewrite !concat_single', !map_length, combine_length, L, Nat.min_id. cbn [length]. lia. }
  rewrite concat_single_id in Q1. unfold h in E. rewrite combine_pairs in E. exists c, st', q. split; auto. split; auto. split; auto.
  rewrite Q2. unfold want. rewrite (concat_single' (fun p => V (snd (fst p)) (snd (snd p)))). apply combine_map2.
Qed.

Lemma now_scale m s y g st g' : (forall st a x g1, now st ((a, x) :: g1) -> In (s, y) g1 \/ proper st0 hs s y ->
    Z.of_nat (length g1) + 2 + Z.of_nat (live hs) <= P -> does dbg o x y (V x y) ->
    exists c st', m a st = Ok (c, st') /\ now st' ((c, V x y) :: g1)) ->
  now st (g ++ g') -> In (s, y) g' \/ proper st0 hs s y ->
  2 * Z.of_nat (length g) + Z.of_nat (length g') + 1 + Z.of_nat (live hs) <= P ->
  Forall (fun x => does dbg o x y (V x y)) (map snd g) ->
  exists c st' q, each m (map fst g) st = Ok (c, st') /\ map fst q = c /\
    map snd q = map (fun x => V x y) (map snd g) /\ now st' (q ++ g').
Proof.
  intros Hm N I R F.
  set (own := fun p : Z * Z => [p]). set (want := fun p : Z * Z => [V (snd p) y]).
  destruct (now_each P st0 hs fst m own (fun c => [c]) want 1 g st g') as (c & st' & q & E & Q1 & Q2 & Nq & _); auto.
  { intros [a x] st1 g1 Ip N1 L1 G1. cbn [own fst snd app length] in *. destruct (Hm st1 a x g1 N1) as (c & st' & E & N2).
    { destruct I as [I|I]; auto. }
    { cbn [length] in L1. lia. }
    { rewrite Forall_forall in F. apply F. apply in_map_iff. exists (a, x). auto. }
    exists c, st', [(c, V x y)]. auto. }
  { unfold own. rewrite concat_single_id. auto. }
  { unfold own, want. rewrite concat_single_id, concat_single', map_length. lia. }
  rewrite concat_single_id in Q1. exists c, st', q. split; auto. split; auto. split; auto.
  rewrite Q2. unfold want. rewrite (concat_single' (fun p => V (snd p) y)), map_map. auto.
Qed.
Lemma scale_clone m s y st a x g1 : binary m -> now st ((a, x) :: g1) -> In (s, y) g1 \/ proper st0 hs s y ->
    Z.of_nat (length g1) + 2 + Z.of_nat (live hs) <= P -> does dbg o x y (V x y) -> In (s, y) g1 ->
    exists c st', (let! r := bi_clone dbg s in m a r) st = Ok (c, st') /\ now st' ((c, V x y) :: g1).
Proof.
  intros Hm N _ L R I. destruct (now_clone dbg P st0 hs st ((a, x) :: g1) s y N) as (st1 & E1 & N1); [right; auto|cbn [length]; lia|].
  destruct (Hm st1 g1 a s x y) as (c & st2 & E2 & N2); auto.
  { eapply now_perm; [apply perm_swap|exact N1]. }
  exists c, st2. split; auto. unfold mbind. rewrite E1. exact E2.
Qed.
End Operations.

(** ** Theorems *)

(** [Vector op Vector] and [Vector op= Vector]. *)
Lemma elementwise_gen : forall dbg o V P st hs a b xs ys,
  consistent P st (a ++ b ++ hs) -> hold st a xs -> hold st b ys -> room P hs (3 * Z.of_nat (length xs)) ->
  Forall2 (fun x y => does dbg o x y (V x y)) xs ys ->
  computes P hs (bv_op dbg o a b) st (fun c => c) (fun st' c => hold st' c (map2 V xs ys)) /\
  computes P hs (bv_assign dbg o a b) st (fun c => c) (fun st' c => hold st' c (map2 V xs ys)).
Proof.
  intros dbg o V P st hs a b xs ys C Ha Hb R F. destruct (two_lists _ _ _ _ _ _ _ C Ha Hb) as (g & k & G1 & G2 & K1 & K2 & N). subst.
  unfold room in R. rewrite map_length in R.
  assert (now P st hs st ((g ++ k) ++ [])) as N' by (rewrite app_nil_r; auto).
  split.
  - destruct (now_zip dbg o V P st hs _ g k st [] (binary_val dbg o V P st hs) N') as (c & st' & q & E & Q1 & Q2 & Nq); auto; [cbn [length]; lia|].
    eapply finish; [exact E|exact Nq|exact Q1|]. rewrite Q2. auto.
  - destruct (now_zip dbg o V P st hs _ g k st [] (binary_assign dbg o V P st hs) N') as (c & st' & q & E & Q1 & Q2 & Nq); auto; [cbn [length]; lia|].
    eapply finish; [exact E|exact Nq|exact Q1|]. rewrite Q2. auto.
Qed.

Theorem C158_elementwise_partial : forall dbg o P st hs a b xs ys,
  consistent P st (a ++ b ++ hs) -> hold st a xs -> hold st b ys -> room P hs (3 * Z.of_nat (length xs)) ->
  Forall2 (right_op dbg o) xs ys ->
  computes P hs (bv_op dbg o a b) st (fun c => c) (fun st' c => hold st' c (map2 (meaning o) xs ys)) /\
  computes P hs (bv_assign dbg o a b) st (fun c => c) (fun st' c => hold st' c (map2 (meaning o) xs ys)).
Proof.
  intros dbg o P st hs a b xs ys C Ha Hb R F. apply elementwise_gen; auto. eapply F2_impl; [|exact F]. intros x y. apply does_right.
Qed.
Print Assumptions C158_elementwise_partial.

(** [Vector op &Vector] and [Vector op= &Vector]: the borrowed vector [b] is among the BigInts that stay. *)
Lemma borrowed_gen : forall dbg o V P st hs a b xs ys,
  consistent P st (a ++ hs) -> hold st a xs -> bound_to st hs b ys -> room P hs (2 * Z.of_nat (length xs)) ->
  Forall2 (fun x y => does dbg o x y (V x y)) xs ys ->
  computes P hs (bv_op_ref dbg o a b) st (fun c => c) (fun st' c => hold st' c (map2 V xs ys)).
Proof.
  intros dbg o V P st hs a b xs ys C Ha Hb R F. destruct (hold_pairs _ _ _ Ha) as (g & G1 & G2 & G3).
  assert (exists k, map fst k = b /\ map snd k = ys /\ Forall (fun p => proper st hs (fst p) (snd p)) k) as (k & K1 & K2 & K3).
  { clear - Hb. unfold bound_to in Hb. induction Hb as [|h x b ys H F (k & K1 & K2 & K3)]; [exists []; auto|].
    exists ((h, x) :: k). cbn [map fst snd]. split; [congruence|]. split; [congruence|]. constructor; auto. }
  subst. unfold room in R. rewrite map_length in R.
  destruct (now_zip_ref dbg o V P st hs g k st []) as (c & st' & q & E & Q1 & Q2 & Nq); auto.
  { rewrite app_nil_r. apply now_start; auto. }
  { cbn [length]. lia. }
  eapply finish; [exact E|exact Nq|exact Q1|]. rewrite Q2. auto.
Qed.

Theorem C158_borrowed_partial : forall dbg o P st hs a b xs ys,
  consistent P st (a ++ hs) -> hold st a xs -> bound_to st hs b ys -> room P hs (2 * Z.of_nat (length xs)) ->
  Forall2 (right_op dbg o) xs ys ->
  computes P hs (bv_op_ref dbg o a b) st (fun c => c) (fun st' c => hold st' c (map2 (meaning o) xs ys)).
Proof.
  intros dbg o P st hs a b xs ys C Ha Hb R F. apply borrowed_gen; auto. eapply F2_impl; [|exact F]. intros x y. apply does_right.
Qed.
Print Assumptions C158_borrowed_partial.

(** [Vector op T] and [Vector op= T], and with a borrowed scalar. *)
Lemma scalar_gen : forall dbg o V P st hs a s xs y, hold st a xs -> Forall (fun x => does dbg o x y (V x y)) xs ->
  (consistent P st (a ++ s :: hs) -> denotes st s y -> s <> neg_zero -> room P hs (2 * Z.of_nat (length xs) + 2) ->
    computes P hs (bv_scalar dbg o a s) st (fun c => c) (fun st' c => hold st' c (map (fun x => V x y) xs)) /\
    computes P hs (bv_assign_scalar dbg o a s) st (fun c => c) (fun st' c => hold st' c (map (fun x => V x y) xs))) /\
  (consistent P st (a ++ hs) -> proper st hs s y -> room P hs (2 * Z.of_nat (length xs) + 1) ->
    computes P hs (bv_scalar_ref dbg o a s) st (fun c => c) (fun st' c => hold st' c (map (fun x => V x y) xs))).
Proof.
  intros dbg o V P st hs a s xs y Ha F. destruct (hold_pairs _ _ _ Ha) as (g & G1 & G2 & G3). subst. unfold room. rewrite map_length. split.
  - intros C D Ns R.
    assert (now P st hs st (g ++ [(s, y)])) as N.
    { apply now_start; [rewrite map_app, <- app_assoc; exact C|]. apply Forall_app. auto. }
    assert (forall m, binary dbg o V P st hs m ->
      computes P hs (let! c := each (fun l => let! r := bi_clone dbg s in m l r) (map fst g) in let! _ := bi_drop s in ret c) st
        (fun c => c) (fun st' c => hold st' c (map (fun x => V x y) (map snd g)))) as H.
    { intros m Hm.
      destruct (now_scale dbg o V P st hs (fun l => let! r := bi_clone dbg s in m l r) s y g st [(s, y)]) as (c & st1 & q & E & Q1 & Q2 & Nq); auto.
      { intros st1 a x g1 N1 I L1 Ro. destruct I as [I|I]; [apply (scale_clone dbg o V P st hs m s y); auto|].
        destruct (clone_spec dbg P st1 (map fst ((a, x) :: g1) ++ hs) s) as (st2 & E2 & C2 & K2).
        { apply N1. }
        { eapply now_room; [exact N1|]. cbn [length]. lia. }
        { apply in_or_app. right. apply I. }
        destruct (Hm st2 g1 a s x y) as (c & st3 & E3 & N3); auto.
        - destruct (now_keeps _ _ _ _ _ _ N1 K2) as [K3 F3]. split; [eapply con_perm; [apply perm_swap|exact C2]|]. split; auto.
          inversion F3; subst. constructor; auto. constructor; auto. cbn [fst snd]. destruct I as (I1 & I2 & I3). split; auto.
        - exists c, st3. split; auto. unfold mbind. rewrite E2. exact E3. }
      { left. left. auto. }
      { cbn [length]. lia. }
      destruct (now_drop P st hs st1 q s y) as (st2 & E2 & N2).
      { eapply now_perm; [|exact Nq]. symmetry. apply Permutation_cons_append. }
      eapply finish with (r := c) (st' := st2) (q := q); [|rewrite app_nil_r; auto|exact Q1|].
      - unfold mbind at 1. rewrite E. cbn [bind]. unfold mbind. rewrite E2. reflexivity.
      - rewrite Q2. auto. }
    split; apply H; [apply binary_val|apply binary_assign].
  - intros C Hs R.
    destruct (now_scale dbg o V P st hs (fun l => by_val_ref (operate dbg o) l s) s y g st []) as (c & st1 & q & E & Q1 & Q2 & Nq); auto.
    { intros st1 a x g1 N1 I L1 Ro. apply (now_val_ref dbg P st hs o st1 g1 a s x y); auto; [|lia]. destruct I as [I|I].
      - apply (now_in P st hs st1 ((a, x) :: g1) s y N1). right; auto.
      - apply (now_frame P st hs st1 ((a, x) :: g1) s y N1). auto. }
    { rewrite app_nil_r. apply now_start; auto. }
    { cbn [length]. lia. }
    eapply finish; [exact E|exact Nq|exact Q1|]. rewrite Q2. auto.
Qed.

Theorem C158_scalar_partial : forall dbg o P st hs a s xs y, hold st a xs -> Forall (fun x => right_op dbg o x y) xs ->
  (consistent P st (a ++ s :: hs) -> denotes st s y -> s <> neg_zero -> room P hs (2 * Z.of_nat (length xs) + 2) ->
    computes P hs (bv_scalar dbg o a s) st (fun c => c) (fun st' c => hold st' c (map (fun x => meaning o x y) xs)) /\
    computes P hs (bv_assign_scalar dbg o a s) st (fun c => c) (fun st' c => hold st' c (map (fun x => meaning o x y) xs))) /\
  (consistent P st (a ++ hs) -> proper st hs s y -> room P hs (2 * Z.of_nat (length xs) + 1) ->
    computes P hs (bv_scalar_ref dbg o a s) st (fun c => c) (fun st' c => hold st' c (map (fun x => meaning o x y) xs))).
Proof.
  intros dbg o P st hs a s xs y Ha F. apply (scalar_gen dbg o (meaning o)); auto. eapply Forall_impl; [|exact F]. intros x. apply does_right.
Qed.
Print Assumptions C158_scalar_partial.

(** ** Matrices *)

Lemma rows_pairs st a xss : Forall2 (hold st) a xss -> exists g, map (map fst) g = a /\ map (map snd) g = xss /\
  Forall (fun p => denotes st (fst p) (snd p) /\ fst p <> neg_zero) (concat g).
Proof.
  induction 1 as [|a xs a' xss H F (g & G1 & G2 & G3)]; [exists []; cbn; auto|]. destruct (hold_pairs _ _ _ H) as (p & P1 & P2 & P3).
  exists (p :: g). cbn [map concat]. split; [congruence|]. split; [congruence|]. apply Forall_app. auto.
Qed.
Lemma rows_hold st : forall c vss q, map fst q = concat c -> map snd q = concat vss -> Forall2 (fun y x : list Z => length y = length x) c vss ->
  hold st (concat c) (concat vss) -> Forall2 (hold st) c vss.
Proof.
  assert (forall (a b c d : list Z), length a = length b -> hold st (a ++ c) (b ++ d) -> hold st a b /\ hold st c d) as Hsplit.
  { unfold hold. induction a as [|x a IH]; intros [|y b] c d L H; try discriminate; cbn [app] in *; auto.
    inversion H; subst. injection L as L. destruct (IH b c d L); auto. }
  intros c vss q _ _ F. induction F as [|x y c vss L F IH]; cbn [concat]; intros H; constructor.
  - apply (Hsplit _ _ _ _ L H).
  - apply IH. apply (Hsplit _ _ _ _ L H).
Qed.
Lemma combine_rows {A} (g k : list (list A)) : Forall2 (fun x y => length x = length y) g k ->
  Permutation (concat (map (fun p => fst p ++ snd p) (combine g k))) (concat g ++ concat k).
Proof.
  induction 1 as [|x y g k L F IH]; cbn [combine map concat fst snd]; auto. rewrite <- !app_assoc. apply Permutation_app_head.
  etransitivity; [apply Permutation_app_head, IH|]. rewrite !app_assoc. apply Permutation_app_tail, Permutation_app_comm.
Qed.

(** [+] and [-] of matrices (and any other operator by element). *)
Lemma matrix_gen : forall dbg o V P st hs a b xss yss,
  consistent P st (concat a ++ concat b ++ hs) -> Forall2 (hold st) a xss -> Forall2 (hold st) b yss ->
  room P hs (4 * Z.of_nat (length (concat xss))) -> Forall2 (Forall2 (fun x y => does dbg o x y (V x y))) xss yss ->
  computes P hs (bm_op dbg o a b) st (@concat Z) (fun st' c => Forall2 (hold st') c (map2 (map2 V) xss yss)).
Proof.
  intros dbg o V P st hs a b xss yss C Ha Hb R F.
  destruct (rows_pairs _ _ _ Ha) as (g & G1 & G2 & G3). destruct (rows_pairs _ _ _ Hb) as (k & K1 & K2 & K3). subst.
  assert (Forall2 (fun x y : list (Z * Z) => length x = length y /\ Forall2 (fun x y => does dbg o x y (V x y)) (map snd x) (map snd y)) g k) as Fg.
  { clear - F. revert k F. induction g as [|x g IH]; intros [|y k] F; cbn [map] in F; inversion F; subst; constructor; auto.
    split; auto. pose proof (Forall2_len _ _ _ H2) as L. rewrite !map_length in L. auto. }
  assert (Forall2 (fun x y : list (Z * Z) => length x = length y) g k) as Fl by (clear - Fg; induction Fg as [|? ? ? ? [? ?]]; constructor; auto).
  assert (Z.of_nat (length (concat g)) = Z.of_nat (length (concat (map (map snd) g)))) as Lc.
  { rewrite <- concat_map, map_length. auto. }
  set (h := fun p : list (Z * Z) * list (Z * Z) => (map fst (fst p), map fst (snd p))).
  set (own := fun p : list (Z * Z) * list (Z * Z) => fst p ++ snd p). set (want := fun p : list (Z * Z) * list (Z * Z) => map2 V (map snd (fst p)) (map snd (snd p))).
  assert (forall p, In p (combine g k) -> length (fst p) = length (snd p) /\ Forall2 (fun x y => does dbg o x y (V x y)) (map snd (fst p)) (map snd (snd p))) as Hp.
  { clear - Fg. induction Fg as [|x y g k H F IH]; cbn [combine In]; [tauto|]. intros p [<-|I]; auto. }
  assert (length (concat (map want (combine g k))) = length (concat g)) as Lw.
  { clear - Fl. unfold want. induction Fl as [|x y g k L F IH]; cbn [combine map concat fst snd]; auto. rewrite !app_length, IH. f_equal.
    clear - L. revert y L. induction x as [|p x IH]; intros [|q y] L; try discriminate; cbn; auto. }
  destruct (now_each P st hs h (fun '(l, r) => bv_op dbg o l r) own (fun c => c) want (Z.of_nat (length (concat g))) (combine g k) st [])
    as (c & st' & q & E & Q1 & Q2 & Nq & Fo).
  { intros [x y] st1 g1 I N1 L1 _. cbn [own fst snd] in *. destruct (Hp _ I) as [L Fr]. cbn [fst snd] in *.
    destruct (now_zip dbg o V P st hs (by_val (operate dbg o)) x y st1 g1 (binary_val dbg o V P st hs)) as (c & st' & q & E & Q1 & Q2 & Nq); auto.
    - unfold own in L1. cbn [fst snd] in L1. rewrite !app_length in L1. apply (f_equal Z.of_nat) in L.
      assert (Z.of_nat (length x) <= Z.of_nat (length (concat g))).
      { apply in_combine_l in I. clear - I. induction g as [|z g IH]; [destruct I|]. cbn [concat]. rewrite app_length. destruct I as [->|I]; [lia|].
        specialize (IH I). lia. }
      lia.
    - exists c, st', q. auto. }
  { rewrite app_nil_r. eapply now_perm; [symmetry; apply combine_rows, Fl|]. apply now_start; [|apply Forall_app; auto].
    rewrite map_app, <- app_assoc, !concat_map. exact C. }
  { rewrite Lw. unfold own. rewrite (Permutation_length (combine_rows g k Fl)), app_length. cbn [length].
    assert (length (concat g) = length (concat k)).
    { clear - Fl. induction Fl; cbn [concat]; auto. rewrite !app_length. congruence. }
    unfold room in R. rewrite <- Lc in R. lia. }
  assert (forall (g k : list (list (Z * Z))), map h (combine g k) = combine (map (map fst) g) (map (map fst) k)) as Hh.
  { clear. induction g as [|x g IH]; intros [|y k]; cbn; auto. f_equal. apply IH. }
  assert (forall (g k : list (list (Z * Z))), map want (combine g k) = map2 (map2 V) (map (map snd) g) (map (map snd) k)) as Hw.
  { clear. induction g as [|x g IH]; intros [|y k]; cbn; auto. f_equal. apply IH. }
  rewrite Hh in E. rewrite Hw in Q2. rewrite map_id in Q1.
  assert (Forall2 (fun y x : list Z => length y = length x) c (map2 (map2 V) (map (map snd) g) (map (map snd) k))) as Fc.
  { rewrite <- Hw. clear - Fo. induction Fo; cbn [map]; constructor; auto. }
  eapply finish; [exact E|exact Nq|exact Q1|]. rewrite Q2. intros Hh'. eapply rows_hold; eauto.
Qed.

Theorem C158_matrix_elementwise_partial : forall dbg o P st hs a b xss yss,
  consistent P st (concat a ++ concat b ++ hs) -> Forall2 (hold st) a xss -> Forall2 (hold st) b yss ->
  room P hs (4 * Z.of_nat (length (concat xss))) -> Forall2 (Forall2 (right_op dbg o)) xss yss ->
  computes P hs (bm_op dbg o a b) st (@concat Z) (fun st' c => Forall2 (hold st') c (map2 (map2 (meaning o)) xss yss)).
Proof.
  intros dbg o P st hs a b xss yss C Ha Hb R F. apply matrix_gen; auto. eapply F2_impl; [|exact F]. intros xs ys Fr.
  eapply F2_impl; [|exact Fr]. intros x y. apply does_right.
Qed.
Print Assumptions C158_matrix_elementwise_partial.

(** Any signs: the operators of vectors and matrices do to the elements what they do to BigInts, the wrong results included ([outcome], C151_any;
    [fit_op] is no condition for [+], [-] and [*]). *)
Theorem C158_any_partial : forall dbg o P st hs,
  (forall a b xs ys, consistent P st (a ++ b ++ hs) -> hold st a xs -> hold st b ys -> Forall2 (fit_op dbg o) xs ys ->
    room P hs (3 * Z.of_nat (length xs)) ->
    computes P hs (bv_op dbg o a b) st (fun c => c) (fun st' c => hold st' c (map2 (outcome o) xs ys)) /\
    computes P hs (bv_assign dbg o a b) st (fun c => c) (fun st' c => hold st' c (map2 (outcome o) xs ys))) /\
  (forall a b xs ys, consistent P st (a ++ hs) -> hold st a xs -> bound_to st hs b ys -> Forall2 (fit_op dbg o) xs ys ->
    room P hs (2 * Z.of_nat (length xs)) ->
    computes P hs (bv_op_ref dbg o a b) st (fun c => c) (fun st' c => hold st' c (map2 (outcome o) xs ys))) /\
  (forall a s xs y, hold st a xs -> consistent P st (a ++ s :: hs) -> hold st [s] [y] -> Forall (fun x => fit_op dbg o x y) xs ->
    room P hs (2 * Z.of_nat (length xs) + 2) ->
    computes P hs (bv_scalar dbg o a s) st (fun c => c) (fun st' c => hold st' c (map (fun x => outcome o x y) xs)) /\
    computes P hs (bv_assign_scalar dbg o a s) st (fun c => c) (fun st' c => hold st' c (map (fun x => outcome o x y) xs))) /\
  (forall a s xs y, hold st a xs -> consistent P st (a ++ hs) -> proper st hs s y -> Forall (fun x => fit_op dbg o x y) xs ->
    room P hs (2 * Z.of_nat (length xs) + 1) ->
    computes P hs (bv_scalar_ref dbg o a s) st (fun c => c) (fun st' c => hold st' c (map (fun x => outcome o x y) xs))) /\
  (forall a b xss yss, consistent P st (concat a ++ concat b ++ hs) -> Forall2 (hold st) a xss -> Forall2 (hold st) b yss ->
    Forall2 (Forall2 (fit_op dbg o)) xss yss -> room P hs (4 * Z.of_nat (length (concat xss))) ->
    computes P hs (bm_op dbg o a b) st (@concat Z) (fun st' c => Forall2 (hold st') c (map2 (map2 (outcome o)) xss yss))).
Proof.
  intros dbg o P st hs.
  assert (forall xs ys, Forall2 (fit_op dbg o) xs ys -> Forall2 (fun x y => does dbg o x y (outcome o x y)) xs ys) as HF
    by (intros xs ys; apply F2_impl; intros; apply does_returned; auto).
  assert (forall xs y, Forall (fun x => fit_op dbg o x y) xs -> Forall (fun x => does dbg o x y (outcome o x y)) xs) as HS
    by (intros xs y; apply Forall_impl; intros; apply does_returned; auto).
  split; [|split; [|split; [|split]]].
  - intros a b xs ys C Ha Hb L R. apply elementwise_gen; auto.
  - intros a b xs ys C Ha Hb L R. apply borrowed_gen; auto.
  - intros a s xs y Ha C Hs L R. inversion Hs as [|? ? ? ? [D N]]; subst. apply scalar_gen; auto.
  - intros a s xs y Ha C Hs L R. apply scalar_gen; auto.
  - intros a b xss yss C Ha Hb L R. apply matrix_gen; auto. eapply F2_impl; [|exact L]. exact HF.
Qed.
Print Assumptions C158_any_partial.

(** The entries of a matrix of integers, and the sum of the first [n] products of row [i] of one and column [j] of another. *)
Definition at_ (m : list (list Z)) (i j : nat) : Z := nth j (nth i m []) 0.
Fixpoint dot (x y : list (list Z)) (i j n : nat) : Z :=
  match n with O => 0 | S n' => dot x y i j n' + at_ x i n' * at_ y n' j end.
(** The same with the additions that BigInt does, from left to right. *)
Fixpoint run_dot (x y : list (list Z)) (i j n : nat) : Z :=
  match n with
  | O => 0
  | S n' => match n' with O => at_ x i 0 * at_ y 0 j | S _ => bi_sum (run_dot x y i j n') (at_ x i n' * at_ y n' j) end
  end.
Lemma run_dot_S x y i j n : (0 < n)%nat -> run_dot x y i j (S n) = bi_sum (run_dot x y i j n) (at_ x i n * at_ y n j).
Proof. destruct n; [lia|reflexivity]. Qed.
Lemma run_dot_exact x y i j n : (forall k, (0 < k < n)%nat -> add_exact (dot x y i j k) (at_ x i k * at_ y k j)) -> run_dot x y i j n = dot x y i j n.
Proof.
  induction n as [|n IH]; intros H; [reflexivity|]. destruct n as [|n]; [cbn [run_dot dot]; lia|].
  rewrite run_dot_S by lia. rewrite IH by (intros k Hk; apply H; lia). change (dot x y i j (S (S n))) with (dot x y i j (S n) + at_ x i (S n) * at_ y (S n) j).
  destruct (exact_sum (dot x y i j (S n)) (at_ x i (S n) * at_ y (S n) j)) as [[_ E]|[E _]]; [exact E|]. destruct E. apply H. lia.
Qed.
Definition has_shape {A} (row col : nat) (m : list (list A)) : Prop := length m = row /\ Forall (fun r => length r = col) m.

Lemma entry_ok (g : list (list (Z * Z))) row col i j st : has_shape row col g -> (i < row)%nat -> (j < col)%nat ->
  exists h x, entry (map (map fst) g) i j st = Ok (h, st) /\ In (h, x) (concat g) /\ x = at_ (map (map snd) g) i j.
Proof.
  intros [L F] Hi Hj. subst row. unfold entry, item, mbind.
  assert (length (nth i g []) = col) as Lr by (rewrite Forall_forall in F; apply F, nth_In, Hi).
  destruct (nth j (nth i g []) (0, 0)) as [h x] eqn:Q. exists h, x.
  rewrite (nth_error_nth' (map (map fst) g) []) by (rewrite map_length; auto). cbn [ret bind].
  change (@nil Z) with (map (@fst Z Z) []). rewrite map_nth.
  rewrite (nth_error_nth' (map fst (nth i g [])) 0) by (rewrite map_length; lia). cbn [ret bind].
  change 0 with (fst (0, 0)) at 1. rewrite map_nth, Q. split; auto. split.
  - apply in_concat. exists (nth i g []). split; [apply nth_In; auto|]. rewrite <- Q. apply nth_In. lia.
  - unfold at_. change (@nil Z) with (map (@snd Z Z) []). rewrite map_nth. change 0 with (snd (0, 0)). rewrite map_nth, Q. auto.
Qed.

Section Product.
Variables (dbg : bool) (P : Z) (st0 : store (list Z)) (hs : list Z) (row col col2 : nat) (a b : list (list (Z * Z))).
Hypotheses (Ha : has_shape row col a) (Hb : has_shape col col2 b).
Notation now := (now P st0 hs).
Notation xs := (map (map snd) a).
Notation ys := (map (map snd) b).

Lemma now_term st g i j k : now st g -> incl (concat a ++ concat b) g -> Z.of_nat (length g) + 2 + Z.of_nat (live hs) <= P ->
  (i < row)%nat -> (k < col)%nat -> (j < col2)%nat ->
  exists c st', bm_term dbg (map (map fst) a) (map (map fst) b) i j k st = Ok (c, st') /\ now st' ((c, at_ xs i k * at_ ys k j) :: g).
Proof.
  intros N I L Hi Hk Hj. unfold bm_term.
  destruct (entry_ok a row col i k st Ha Hi Hk) as (h & x & E1 & I1 & ->).
  destruct (now_clone dbg P st0 hs st g h (at_ xs i k) N) as (st1 & E2 & N1); [apply I, in_or_app; auto|lia|].
  destruct (entry_ok b col col2 k j st1 Hb Hk Hj) as (h' & y & E3 & I3 & ->).
  destruct (now_clone dbg P st0 hs st1 _ h' (at_ ys k j) N1) as (st2 & E4 & N2); [right; apply I, in_or_app; auto|cbn [length]; lia|].
  destruct (now_val dbg P st0 hs OMul st2 g h h' (at_ xs i k) (at_ ys k j) (at_ xs i k * at_ ys k j)) as (c & st3 & E5 & N3); [|lia|apply does_mul|].
  { eapply now_perm; [apply perm_swap|exact N2]. }
  exists c, st3. split; auto. unfold mbind. rewrite E1; cbn [bind]. rewrite E2; cbn [bind]. rewrite E3; cbn [bind]. rewrite E4; cbn [bind]. exact E5.
Qed.
Lemma now_sum i j : (i < row)%nat -> (j < col2)%nat -> forall n s st g out, now st ((out, run_dot xs ys i j s) :: g) ->
  incl (concat a ++ concat b) g -> Z.of_nat (length g) + 3 + Z.of_nat (live hs) <= P -> (0 < s)%nat -> (s + n <= col)%nat ->
  exists c st', bm_sum dbg (map (map fst) a) (map (map fst) b) i j (seq s n) out st = Ok (c, st') /\ now st' ((c, run_dot xs ys i j (s + n)) :: g).
Proof.
  intros Hi Hj. induction n as [|n IH]; intros s st g out N I L Hs0 Hs; cbn [seq bm_sum].
  - exists out, st. split; [reflexivity|]. rewrite Nat.add_0_r. auto.
  - destruct (now_term st _ i j s N) as (p & st1 & E1 & N1); auto; [apply incl_tl, I|cbn [length]; lia|lia|].
    destruct (now_val dbg P st0 hs OAdd st1 g out p (run_dot xs ys i j s) (at_ xs i s * at_ ys s j) (run_dot xs ys i j (S s))) as (c & st2 & E2 & N2).
    { eapply now_perm; [apply perm_swap|exact N1]. }
    { lia. }
    { rewrite run_dot_S by auto. apply does_sum. }
    destruct (IH (S s) st2 g c) as (c' & st3 & E3 & N3); auto; [lia|].
    exists c', st3. split; [unfold mbind at 1; rewrite E1; cbn [bind]; unfold mbind; rewrite E2; exact E3|].
    replace (s + S n)%nat with (S s + n)%nat by lia. auto.
Qed.

Lemma now_product st g : now st g -> incl (concat a ++ concat b) g -> (0 < col)%nat ->
  Z.of_nat (length g) + Z.of_nat (row * col2) + Z.of_nat col2 + 3 + Z.of_nat (live hs) <= P ->
  exists c st' q, each (fun i => each (fun j => let! out := bm_term dbg (map (map fst) a) (map (map fst) b) i j 0 in
      bm_sum dbg (map (map fst) a) (map (map fst) b) i j (seq 1 (col - 1)) out) (seq 0 col2)) (seq 0 row) st = Ok (c, st') /\
    map fst q = concat c /\ map snd q = concat (map (fun i => map (fun j => run_dot xs ys i j col) (seq 0 col2)) (seq 0 row)) /\ now st' (q ++ g) /\
    Forall2 (fun y x : list Z => length y = length x) c (map (fun i => map (fun j => run_dot xs ys i j col) (seq 0 col2)) (seq 0 row)).
Proof.
  intros N I Hc L.
  set (f := fun i => each (fun j => let! out := bm_term dbg (map (map fst) a) (map (map fst) b) i j 0 in
      bm_sum dbg (map (map fst) a) (map (map fst) b) i j (seq 1 (col - 1)) out) (seq 0 col2)).
  set (want := fun i => map (fun j => run_dot xs ys i j col) (seq 0 col2)).
  assert (forall r, length (concat (map want r)) = (length r * col2)%nat) as Lw.
  { induction r as [|i r IH]; cbn [map concat length]; auto. rewrite app_length, IH. unfold want. rewrite map_length, seq_length. lia. }
  assert (forall {A} (l : list A), concat (map (fun _ => @nil (Z * Z)) l) = []) as Hnil by (induction l; auto).
  destruct (now_each P st0 hs (fun i => i) f (fun _ => []) (fun c => c) want (Z.of_nat col2 + 3) (seq 0 row) st g) as (c & st' & q & E & Q1 & Q2 & Nq & Fo).
  { intros i st1 g1 Ii N1 L1 G1. cbn [app] in *. apply in_seq in Ii. unfold f, want.
    destruct (now_each P st0 hs (fun j => j) (fun j => let! out := bm_term dbg (map (map fst) a) (map (map fst) b) i j 0 in
      bm_sum dbg (map (map fst) a) (map (map fst) b) i j (seq 1 (col - 1)) out) (fun _ => []) (fun c => [c]) (fun j => [run_dot xs ys i j col]) 3 (seq 0 col2) st1 g1)
      as (c & st' & q & E & Q1 & Q2 & Nq & Fo).
    { intros j st2 g2 Ij N2 L2 G2. cbn [app] in *. apply in_seq in Ij.
      assert (incl (concat a ++ concat b) g2) as I2 by (intros p Q; apply G2, G1, I, Q).
      destruct (now_term st2 g2 i j 0 N2 I2) as (p & st3 & E3 & N3); try lia.
      destruct (now_sum i j ltac:(lia) ltac:(lia) (col - 1) 1 st3 g2 p) as (d & st4 & E4 & N4); auto; try lia.
      exists d, st4, [(d, run_dot xs ys i j col)]. split; [unfold mbind; rewrite E3; exact E4|]. split; auto. split; auto.
      replace (1 + (col - 1))%nat with col in N4 by lia. exact N4. }
    { rewrite Hnil. auto. }
    { rewrite Hnil, concat_single', map_length, seq_length. cbn [length]. lia. }
    exists c, st', q. rewrite map_id in E. split; auto. rewrite concat_single_id in Q1. split; auto. rewrite concat_single' in Q2. auto. }
  { rewrite Hnil. auto. }
  { rewrite Hnil, Lw, seq_length. cbn [length]. lia. }
  rewrite map_id in E, Q1. exists c, st', q. split; auto. split; auto. split; auto. split; auto.
  clear - Fo. induction Fo; cbn [map]; constructor; auto.
Qed.
End Product.

(** The product of matrices of any integers: the products of the entries are right, and they are added up, from left to right, as [+]
    does. *)
Theorem C158_product_any_partial : forall dbg P st hs row col col2 a b xss yss,
  consistent P st (concat a ++ concat b ++ hs) -> Forall2 (hold st) a xss -> Forall2 (hold st) b yss ->
  has_shape row col xss -> has_shape col col2 yss -> (0 < col)%nat ->
  room P hs (Z.of_nat (row * col + col * col2 + row * col2 + col2) + 3) ->
  computes P hs (bm_mul dbg row col col2 a b) st (@concat Z)
    (fun st' c => Forall2 (hold st') c (map (fun i => map (fun j => run_dot xss yss i j col) (seq 0 col2)) (seq 0 row))).
Proof.
  intros dbg P st hs row col col2 a b xss yss C Ha Hb Sa Sb Hc R.
  destruct (rows_pairs _ _ _ Ha) as (g & G1 & G2 & G3). destruct (rows_pairs _ _ _ Hb) as (k & K1 & K2 & K3). subst.
  assert (forall r c (g : list (list (Z * Z))), has_shape r c (map (map snd) g) -> has_shape r c g /\ length (concat g) = (r * c)%nat) as Hs.
  { clear. intros r c g [L F]. rewrite map_length in L. assert (Forall (fun r => length r = c) g) as F'.
    { rewrite Forall_forall in *. intros l Il. rewrite <- (F (map snd l) (in_map _ _ _ Il)), map_length. auto. }
    split; [split; auto|]. clear F. subst r. induction F' as [|x g Hx F IH]; cbn [concat length]; auto. rewrite app_length, IH, Hx. lia. }
  destruct (Hs _ _ _ Sa) as [Sg Lg]. destruct (Hs _ _ _ Sb) as [Sk Lk]. unfold room in R.
  assert (now P st hs st (concat g ++ concat k)) as N.
  { apply now_start; [|apply Forall_app; auto]. rewrite map_app, <- app_assoc, !concat_map. exact C. }
  destruct (now_product dbg P st hs row col col2 g k Sg Sk st (concat g ++ concat k) N) as (c & st1 & q & E & Q1 & Q2 & Nq & Fo); auto.
  { apply incl_refl. }
  { rewrite app_length, Lg, Lk. lia. }
  destruct (now_drop_all P st hs (concat k) st1 (concat g ++ q)) as (st2 & E2 & N2).
  { eapply now_perm; [|exact Nq]. rewrite (app_assoc (concat k)). etransitivity; [apply Permutation_app_comm|]. apply Permutation_app_tail, Permutation_app_comm. }
  destruct (now_drop_all P st hs (concat g) st2 q N2) as (st3 & E3 & N3).
  rewrite concat_map in E2, E3.
  eapply finish with (r := c) (st' := st3) (q := q); [|rewrite app_nil_r; auto|exact Q1|].
  - unfold bm_mul. unfold mbind at 1. rewrite E. cbn [bind]. unfold mbind. rewrite E2. cbn [bind]. rewrite E3. reflexivity.
  - rewrite Q2. intros Hh. eapply rows_hold; eauto.
Qed.
Print Assumptions C158_product_any_partial.

(** The product of matrices: right whenever every partial sum is one that [+] gets right. *)
Theorem C158_product_partial : forall dbg P st hs row col col2 a b xss yss,
  consistent P st (concat a ++ concat b ++ hs) -> Forall2 (hold st) a xss -> Forall2 (hold st) b yss ->
  has_shape row col xss -> has_shape col col2 yss -> (0 < col)%nat ->
  room P hs (Z.of_nat (row * col + col * col2 + row * col2 + col2) + 3) ->
  (forall i j k, (i < row)%nat -> (j < col2)%nat -> (0 < k < col)%nat -> add_exact (dot xss yss i j k) (at_ xss i k * at_ yss k j)) ->
  computes P hs (bm_mul dbg row col col2 a b) st (@concat Z)
    (fun st' c => Forall2 (hold st') c (map (fun i => map (fun j => dot xss yss i j col) (seq 0 col2)) (seq 0 row))).
Proof.
  intros dbg P st hs row col col2 a b xss yss C Ha Hb Sa Sb Hc R H.
  destruct (C158_product_any_partial dbg P st hs row col col2 a b xss yss C Ha Hb Sa Sb Hc R) as (c & st' & E & C' & K & G).
  exists c, st'. split; [exact E|]. split; [exact C'|]. split; [exact K|].
  replace (map (fun i => map (fun j => dot xss yss i j col) (seq 0 col2)) (seq 0 row))
    with (map (fun i => map (fun j => run_dot xss yss i j col) (seq 0 col2)) (seq 0 row)); [exact G|].
  apply map_ext_in. intros i Ii. apply map_ext_in. intros j Ij. apply in_seq in Ii, Ij. apply run_dot_exact. intros k Hk. apply H; lia.
Qed.
Print Assumptions C158_product_partial.

(** In particular the product of matrices of non-negative numbers. *)
Theorem C158_product_natural_partial : forall dbg P st hs row col col2 a b xss yss,
  consistent P st (concat a ++ concat b ++ hs) -> Forall2 (hold st) a xss -> Forall2 (hold st) b yss ->
  has_shape row col xss -> has_shape col col2 yss -> (0 < col)%nat ->
  room P hs (Z.of_nat (row * col + col * col2 + row * col2 + col2) + 3) ->
  Forall (Forall (fun x => 0 <= x)) xss -> Forall (Forall (fun y => 0 <= y)) yss ->
  computes P hs (bm_mul dbg row col col2 a b) st (@concat Z)
    (fun st' c => Forall2 (hold st') c (map (fun i => map (fun j => dot xss yss i j col) (seq 0 col2)) (seq 0 row))).
Proof.
  intros dbg P st hs row col col2 a b xss yss C Ha Hb Sa Sb Hc R Nx Ny. apply C158_product_partial; auto.
  assert (forall (m : list (list Z)) i j, Forall (Forall (fun x => 0 <= x)) m -> 0 <= at_ m i j) as Hat.
  { intros m i j F. unfold at_. assert (Forall (fun x => 0 <= x) (nth i m [])) as F'.
    { destruct (Nat.lt_ge_cases i (length m)); [rewrite Forall_forall in F; apply F, nth_In; auto|rewrite nth_overflow by auto; constructor]. }
    destruct (Nat.lt_ge_cases j (length (nth i m []))); [rewrite Forall_forall in F'; apply F', nth_In; auto|rewrite nth_overflow by auto; lia]. }
  assert (forall i j k, 0 <= dot xss yss i j k) as Hd.
  { intros i j k. induction k as [|k IH]; cbn [dot]; [lia|]. pose proof (Hat xss i k Nx). pose proof (Hat yss k j Ny). nia. }
  intros i j k _ _ _. left. split; auto. pose proof (Hat xss i k Nx). pose proof (Hat yss k j Ny). nia.
Qed.
Print Assumptions C158_product_natural_partial.

(** ** Triples and complex numbers *)

Ltac pfx x L := match L with x :: ?t => constr:(@nil (Z * Z)) | ?y :: ?t => let p := pfx x t in constr:(y :: p) end.
Ltac sfx x L := match L with x :: ?t => t | _ :: ?t => sfx x t end.
Ltac perm := match goal with
  | |- Permutation [] [] => constructor
  | |- Permutation (?x :: ?r) ?L => let p := pfx x L in let s := sfx x L in apply (Permutation_cons_app p s); cbn [app]; perm end.
(** Symbolic execution of the clone, operator or drop at the front of a program. *)
Ltac val_of a g := match g with (a, ?x) :: _ => x | _ :: ?t => val_of a t end.
Ltac rest p L := match L with p :: ?t => constr:(t) | ?y :: ?t => let r := rest p t in constr:(y :: r) end.
Ltac do_clone := match goal with N : now ?P ?st0 ?hs ?st ?g |- context [mbind (bi_clone ?dbg ?h) _ ?st] =>
  let st1 := fresh "st" in let E := fresh "E" in let N1 := fresh "N" in let x := val_of h g in
  destruct (now_clone dbg P st0 hs st g h x N) as (st1 & E & N1); [cbn [In]; auto 20|cbn [length]; lia|];
  unfold mbind at 1; rewrite E; cbn [bind]; clear E N end.
Ltac do_op := match goal with N : now ?P ?st0 ?hs ?st ?g |- context [mbind (by_val (operate ?dbg ?o) ?a ?b) _ ?st] =>
  let st1 := fresh "st" in let E := fresh "E" in let N1 := fresh "N" in let c := fresh "c" in
  let x := val_of a g in let g1 := rest (a, x) g in let y := val_of b g1 in let g2 := rest (b, y) g1 in
  let H := fresh "H" in let v := match goal with
    | Q : does dbg o x y ?w |- _ => constr:(w)
    | _ => match o with OAdd => constr:(bi_sum x y) | OSub => constr:(bi_diff x y) | OMul => constr:(x * y) end end in
  assert (does dbg o x y v) as H by first [assumption|apply does_sum|apply does_diff|apply does_mul];
  destruct (now_val dbg P st0 hs o st g2 a b x y v) as (c & st1 & E & N1);
  [eapply now_perm; [|exact N]; perm|cbn [length]; lia|exact H|];
  clear H; unfold mbind at 1; rewrite E; cbn [bind] in N1 |- *; clear E N end.
Ltac do_drop := match goal with N : now ?P ?st0 ?hs ?st ?g |- context [mbind (bi_drop ?a) _ ?st] =>
  let st1 := fresh "st" in let E := fresh "E" in let N1 := fresh "N" in let x := val_of a g in let g1 := rest (a, x) g in
  destruct (now_drop P st0 hs st g1 a x) as (st1 & E & N1); [eapply now_perm; [|exact N]; perm|];
  unfold mbind at 1; rewrite E; cbn [bind]; clear E N end.
Ltac stop r parts := match goal with N : now ?P ?st0 ?hs ?st ?g |- _ =>
  exists r, st; split; [reflexivity|]; apply (now_perm P st0 hs st g parts) in N; [|symmetry; perm];
  destruct N as (? & ? & N); split; [assumption|]; split; [assumption|]; exact (pairs_hold _ _ N) end.

Definition triple (p : Z * Z * Z) : list Z := let '(x, y, z) := p in [x; y; z].
Definition both (c : complex Z) : list Z := [real c; imag c].

(** Complex numbers of any integers: what each operation makes of the results of the operators on BigInts. *)
Lemma complex_gen : forall dbg P st hs a b x y u v, consistent P st (both a ++ both b ++ hs) ->
  hold st (both a) [x; y] -> hold st (both b) [u; v] -> room P hs 8 ->
  (forall o p q, does dbg o x u p -> does dbg o y v q ->
    computes P hs (bc_op dbg o a b) st both (fun st' c => hold st' (both c) [p; q])) /\
  computes P hs (bc_mul dbg a b) st both (fun st' c => hold st' (both c) [bi_diff (x * u) (y * v); bi_sum (x * v) (u * y)]) /\
  (let d := u * u + v * v in
    forall p q, does dbg ODiv (bi_sum (x * u) (y * v)) d p -> does dbg ODiv (bi_diff (y * u) (x * v)) d q ->
    computes P hs (bc_div dbg a b) st both (fun st' c => hold st' (both c) [p; q])).
Proof.
  intros dbg P st hs [ar ai] [br bi] x y u v C Ha Hb R. unfold both in *. cbn [real imag app] in *.
  assert (now P st hs st [(ar, x); (ai, y); (br, u); (bi, v)]) as N.
  { apply now_start; auto. inversion Ha as [|? ? ? ? A1 A2]; inversion A2; inversion Hb as [|? ? ? ? B1 B2]; inversion B2; subst. repeat constructor; cbn [fst snd]; tauto. }
  unfold room in R. split; [|split].
  - intros o p q R1 R2. unfold computes, bc_op. cbn [real imag]. do_op. do_op. stop (Cx c c0) [(c, p); (c0, q)].
  - unfold computes, bc_mul. cbn [real imag].
    do_clone. do_clone. do_op. do_clone. do_clone. do_op. do_op. do_op. do_op. do_op.
    stop (Cx c1 c4) [(c1, bi_diff (x * u) (y * v)); (c4, bi_sum (x * v) (u * y))].
  - intros p q A1 A2. unfold computes, bc_div. cbn [real imag].
    assert (bi_sum (u * u) (v * v) = u * u + v * v) as Ed.
    { destruct (exact_sum (u * u) (v * v)) as [[_ E]|[E _]]; [exact E|]. destruct E. left. nia. }
    rewrite <- Ed in A1, A2. clear Ed.
    do_clone. do_clone. do_op. do_clone. do_clone. do_op. do_op.
    do_clone. do_clone. do_op. do_clone. do_clone. do_op. do_op. do_clone. do_op. do_op. do_op. do_op. do_op.
    stop (Cx c5 c9) [(c5, p); (c9, q)].
Qed.
Lemma sum_right x y : add_exact x y -> bi_sum x y = x + y.
Proof. intros A. destruct (exact_sum x y) as [[_ E]|[E _]]; [exact E|contradiction]. Qed.
Lemma diff_right x y : add_exact x (- y) -> bi_diff x y = x - y.
Proof. intros A. apply sum_right, A. Qed.

(** Complex numbers: [+] and [-] by part, and the product. *)
Theorem C158_complex_partial : forall dbg P st hs a b x y u v, consistent P st (both a ++ both b ++ hs) ->
  hold st (both a) [x; y] -> hold st (both b) [u; v] -> room P hs 8 ->
  (forall o, right_op dbg o x u -> right_op dbg o y v ->
    computes P hs (bc_op dbg o a b) st both (fun st' c => hold st' (both c) [meaning o x u; meaning o y v])) /\
  (add_exact (x * u) (- (y * v)) -> add_exact (x * v) (u * y) ->
    computes P hs (bc_mul dbg a b) st both (fun st' c => hold st' (both c) [x * u - y * v; x * v + y * u])) /\
  (let d := u * u + v * v in
    right_op dbg OAdd (x * u) (y * v) -> right_op dbg ODiv (x * u + y * v) d ->
    right_op dbg OSub (y * u) (x * v) -> right_op dbg ODiv (y * u - x * v) d ->
    computes P hs (bc_div dbg a b) st both (fun st' c => hold st' (both c) [Z.quot (x * u + y * v) d; Z.quot (y * u - x * v) d])).
Proof.
  intros dbg P st hs a b x y u v C Ha Hb R. destruct (complex_gen dbg P st hs a b x y u v C Ha Hb R) as (H1 & H2 & H3). split; [|split].
  - intros o R1 R2. apply H1; apply does_right; auto.
  - intros A1 A2. rewrite (diff_right _ _ A1), (sum_right _ _ A2), (Z.mul_comm u y) in H2. exact H2.
  - intros d A1 A2 A3 A4. cbn [right_op] in A1, A3. apply H3.
    + rewrite (sum_right _ _ A1). apply (does_right dbg ODiv _ _ A2).
    + rewrite (diff_right _ _ A3). apply (does_right dbg ODiv _ _ A4).
Qed.
Print Assumptions C158_complex_partial.

(** Complex numbers of any integers, without conditions on the sums: [+] and [-] by part, the product, and the quotient where the
    divisions are within the limits of [/]. *)
Theorem C158_complex_any_partial : forall dbg P st hs a b x y u v, consistent P st (both a ++ both b ++ hs) ->
  hold st (both a) [x; y] -> hold st (both b) [u; v] -> room P hs 8 ->
  computes P hs (bc_op dbg OAdd a b) st both (fun st' c => hold st' (both c) [bi_sum x u; bi_sum y v]) /\
  computes P hs (bc_op dbg OSub a b) st both (fun st' c => hold st' (both c) [bi_diff x u; bi_diff y v]) /\
  computes P hs (bc_mul dbg a b) st both (fun st' c => hold st' (both c) [bi_diff (x * u) (y * v); bi_sum (x * v) (u * y)]) /\
  (let d := u * u + v * v in let p := bi_sum (x * u) (y * v) in let q := bi_diff (y * u) (x * v) in
    right_op dbg ODiv p d -> right_op dbg ODiv q d ->
    computes P hs (bc_div dbg a b) st both (fun st' c => hold st' (both c) [Z.quot p d; Z.quot q d])).
Proof.
  intros dbg P st hs a b x y u v C Ha Hb R. destruct (complex_gen dbg P st hs a b x y u v C Ha Hb R) as (H1 & H2 & H3).
  split; [apply H1; apply does_sum|]. split; [apply H1; apply does_diff|]. split; [exact H2|].
  intros d p q A1 A2. apply H3; [apply (does_right dbg ODiv _ _ A1)|apply (does_right dbg ODiv _ _ A2)].
Qed.
Print Assumptions C158_complex_any_partial.

(** Complex numbers and a scalar. *)
Theorem C158_complex_scalar_partial : forall dbg P st hs a s x y u, consistent P st (both a ++ s :: hs) ->
  hold st (both a) [x; y] -> hold st [s] [u] -> room P hs 8 ->
  (forall o, right_op dbg o x u ->
    computes P hs (bc_scalar dbg o a s) st both (fun st' c => hold st' (both c) [meaning o x u; y])) /\
  computes P hs (bc_mul_scalar dbg a s) st both (fun st' c => hold st' (both c) [x * u; y * u]) /\
  (right_op dbg ODiv (x * u) (u * u) -> right_op dbg ODiv (y * u) (u * u) ->
    computes P hs (bc_div_scalar dbg a s) st both (fun st' c => hold st' (both c) [Z.quot x u; Z.quot y u])).
Proof.
  intros dbg P st hs [ar ai] s x y u C Ha Hs R. unfold both in *. cbn [real imag app] in *.
  assert (now P st hs st [(ar, x); (ai, y); (s, u)]) as N.
  { apply now_start; auto. inversion Ha as [|? ? ? ? A1 A2]; inversion A2; inversion Hs; subst. repeat constructor; cbn [fst snd]; tauto. }
  unfold room in R. split; [|split].
  - intros o R1. apply does_right in R1. unfold computes, bc_scalar. cbn [real imag]. do_op. stop (Cx c ai) [(c, meaning o x u); (ai, y)].
  - unfold computes, bc_mul_scalar. cbn [real imag]. do_clone. do_op. do_op. stop (Cx c c0) [(c, x * u); (c0, y * u)].
  - intros A1 A2. unfold computes, bc_div_scalar. cbn [real imag]. pose proof (proj1 A1) as Hz. apply does_right in A1, A2. cbn [meaning] in A1, A2.
    do_clone. do_clone. do_op. do_clone. do_clone. do_op. do_clone. do_op. do_op. do_op. do_drop.
    match goal with N : now _ _ _ _ _ |- _ => rewrite !Z.quot_mul_cancel_r in N by nia end. stop (Cx c1 c3) [(c1, Z.quot x u); (c3, Z.quot y u)].
Qed.
Print Assumptions C158_complex_scalar_partial.

(** The cross product. *)
Theorem C158_cross_any_partial : forall dbg P st hs a b x1 x2 x3 y1 y2 y3, consistent P st (triple a ++ triple b ++ hs) ->
  hold st (triple a) [x1; x2; x3] -> hold st (triple b) [y1; y2; y3] -> room P hs 14 ->
  computes P hs (bv_cross dbg a b) st triple
    (fun st' c => hold st' (triple c) [bi_diff (x2 * y3) (x3 * y2); bi_diff (x3 * y1) (x1 * y3); bi_diff (x1 * y2) (x2 * y1)]).
Proof.
  intros dbg P st hs [[ax ay] az] [[bx by_] bz] x1 x2 x3 y1 y2 y3 C Ha Hb R. unfold triple in *. cbn [app] in *.
  assert (now P st hs st [(ax, x1); (ay, x2); (az, x3); (bx, y1); (by_, y2); (bz, y3)]) as N.
  { apply now_start; auto. repeat match goal with H : hold _ (_ :: _) _ |- _ => inversion H; clear H; subst | H : Forall2 _ (_ :: _) _ |- _ => inversion H; clear H; subst end.
    repeat constructor; cbn [fst snd]; tauto. }
  unfold room in R. unfold computes, bv_cross. cbn [drop_all].
  assert (forall A B C' (m : M A) (f : A -> M B) (k : B -> M C') st, mbind (mbind m f) k st = mbind m (fun x => mbind (f x) k) st) as Hassoc.
  { intros. unfold mbind. destruct (m st0) as [[r s1]| |]; reflexivity. }
  repeat (rewrite Hassoc; do_clone; rewrite Hassoc; do_clone; do_op). do_op. do_op. do_op. rewrite !Hassoc.
  assert (forall B (k : unit -> M B) st, mbind (ret tt) k st = k tt st) as Hret by reflexivity.
  repeat (repeat rewrite Hassoc; do_drop). rewrite Hret. repeat (repeat rewrite Hassoc; do_drop). rewrite Hret.
  stop (c5, c6, c7) [(c5, bi_diff (x2 * y3) (x3 * y2)); (c6, bi_diff (x3 * y1) (x1 * y3)); (c7, bi_diff (x1 * y2) (x2 * y1))].
Qed.
Print Assumptions C158_cross_any_partial.
Theorem C158_cross_partial : forall dbg P st hs a b x1 x2 x3 y1 y2 y3, consistent P st (triple a ++ triple b ++ hs) ->
  hold st (triple a) [x1; x2; x3] -> hold st (triple b) [y1; y2; y3] -> room P hs 14 ->
  add_exact (x2 * y3) (- (x3 * y2)) -> add_exact (x3 * y1) (- (x1 * y3)) -> add_exact (x1 * y2) (- (x2 * y1)) ->
  computes P hs (bv_cross dbg a b) st triple (fun st' c => hold st' (triple c) [x2 * y3 - x3 * y2; x3 * y1 - x1 * y3; x1 * y2 - x2 * y1]).
Proof.
  intros dbg P st hs a b x1 x2 x3 y1 y2 y3 C Ha Hb R A1 A2 A3. pose proof (C158_cross_any_partial dbg P st hs a b x1 x2 x3 y1 y2 y3 C Ha Hb R) as H.
  rewrite (diff_right _ _ A1), (diff_right _ _ A2), (diff_right _ _ A3) in H. exact H.
Qed.
Print Assumptions C158_cross_partial.

(** The general statement fails with BigInt's sums of numbers of opposite signs: [[1, 1]] * [[1], [-3]] is [[0]] and
    Vector([1]) - Vector([3]) is Vector([0]). *)
Theorem C158_refuted : exists P a b c d,
  consistent P [] (concat a ++ concat b) /\ Forall2 (hold []) a [[1; 1]] /\ Forall2 (hold []) b [[1]; [-3]] /\ room P [] 100 /\
  (forall dbg, bm_mul dbg 1 2 1 a b [] = Ok ([[2]], [])) /\ denotes [] 2 0 /\ dot [[1; 1]] [[1]; [-3]] 0 0 2 = -2 /\
  consistent P [] (c ++ d) /\ hold [] c [1] /\ hold [] d [3] /\ (forall dbg, bv_op dbg OSub c d [] = Ok ([2], [])).
Proof.
  assert (forall l, Forall (fun h => 0 <= h < 2 ^ 64 /\ Z.testbit h 1 = true) l -> consistent 100 [] l) as Hc.
  { intros l F. constructor; [constructor|cbn; intros; lia| |cbn; lia|lia]. eapply Forall_impl; [|exact F]. intros h [H1 H2]. split; auto. }
  exists 100, [[6; 6]], [[6]; [15]], [6], [14].
  assert (forall h, In h [6; 6; 6; 15; 14] -> 0 <= h < 2 ^ 64 /\ Z.testbit h 1 = true) as Hh.
  { intros h I. cbn [In] in I. repeat destruct I as [<-|I]; try contradiction; split; try lia; reflexivity. }
  split; [apply Hc; rewrite Forall_forall; intros h I; apply Hh; cbn in *; tauto|].
  split; [repeat constructor; discriminate|]. split; [repeat constructor; discriminate|]. split; [vm_compute; discriminate|].
  split; [intros []; vm_compute; reflexivity|]. split; [reflexivity|]. split; [reflexivity|].
  split; [apply Hc; rewrite Forall_forall; intros h I; apply Hh; cbn in *; tauto|].
  split; [repeat constructor; discriminate|]. split; [repeat constructor; discriminate|]. intros []; vm_compute; reflexivity.
Qed.
Print Assumptions C158_refuted.

(** The BigInts 2^100 + 3, -7, -7 * (2^100 + 3) and 9 of PropBigInt.v. *)
Lemma demo_consistent_100 hs : Permutation demo_hs hs -> consistent 100 demo_st hs.
Proof. intros Q. eapply con_perm; [exact Q|]. destruct demo_consistent as [H1 H2 H3 H4 H5]. constructor; auto; lia. Qed.
Example C158_demo : let X := 2 ^ 100 + 3 in
  consistent 100 demo_st (concat [[0; 31]] ++ concat [[38]; [5]] ++ []) /\ Forall2 (hold demo_st) [[0; 31]] [[X; -7]] /\
  Forall2 (hold demo_st) [[38]; [5]] [[9]; [X * -7]] /\ has_shape 1 2 [[X; -7]] /\ has_shape 2 1 [[9]; [X * -7]] /\ room 100 [] 14 /\
  (forall i j k, (i < 1)%nat -> (j < 1)%nat -> (0 < k < 2)%nat -> add_exact (dot [[X; -7]] [[9]; [X * -7]] i j k) (at_ [[X; -7]] i k * at_ [[9]; [X * -7]] k j)) /\
  dot [[X; -7]] [[9]; [X * -7]] 0 0 2 = X * 58 /\
  consistent 100 demo_st (both (Cx 5 31) ++ both (Cx 0 38) ++ []) /\ hold demo_st (both (Cx 5 31)) [X * -7; -7] /\ hold demo_st (both (Cx 0 38)) [X; 9] /\
  add_exact (X * -7 * X) (- (-7 * 9)) /\ add_exact (X * -7 * 9) (X * -7).
Proof.
  destruct demo_a' as (_ & A & A'). destruct demo_b' as (_ & B & B'). destruct demo_c' as (_ & C & C'). destruct demo_d' as (_ & D & D').
  assert (Permutation demo_hs ([0; 31] ++ [38; 5])) as Q.
  { rewrite demo_handles. do 2 apply perm_skip. apply perm_swap. }
  intros X.
  split; [apply demo_consistent_100, Q|]. split; [repeat constructor; assumption|]. split; [repeat constructor; assumption|].
  split; [repeat constructor|]. split; [repeat constructor|]. split; [vm_compute; discriminate|].
  split; [intros i j k Hi Hj Hk; assert (i = 0%nat /\ j = 0%nat /\ k = 1%nat) as (-> & -> & ->) by lia; left; vm_compute; split; discriminate|].
  split; [reflexivity|]. split; [apply demo_consistent_100|].
  { etransitivity; [exact Q|]. cbn. apply (Permutation_cons_app [5; 31] [38]). cbn. apply (Permutation_cons_app [5] [38]). apply perm_swap. }
  split; [repeat constructor; assumption|]. split; [repeat constructor; assumption|].
  split; [right; right; left; vm_compute; discriminate|right; left; vm_compute; split; reflexivity].
Qed.

(** The wrong results: [[1, 1]] * [[1], [-3]] and (1 + i) * (1 + 3 i). *)
Example C158_any_demo : bi_diff 1 3 = 0 /\ bi_sum 1 (-3) = 0 /\ bi_sum (-3) 1 = -2 /\ bi_sum (2 ^ 70) (- 2 ^ 71) = - 2 ^ 70 + 2 /\
  run_dot [[1; 1]] [[1]; [-3]] 0 0 2 = 0 /\ dot [[1; 1]] [[1]; [-3]] 0 0 2 = -2.
Proof. vm_compute. repeat split. Qed.
