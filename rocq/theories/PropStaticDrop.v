(** C146: what becomes of the elements of arrays given to static iterators. *)
From Coq Require Import ZArith List Bool Arith Lia.
From Verif Require Import Base StaticIterModel StaticIterSpec StaticIterProofs VectorModel CompoundsSpec PropStatic PropVector
  StaticDropModel StaticDropSpec StaticDropProofs.
Import ListNotations.

(** The runs below end like those of StaticIterModel.v (C84, C85). *)
Theorem C146_same_outcome : forall A S B E n (a : adapter A) (s : S) (f : S -> nat -> A -> out (S + B)) (g : S -> A -> out S) (h : S -> A -> out (S + E)),
  try_from f a 0 n s = match run f a 0 n s with
    | (a', s', Ret None) => Ret (a', inl s') | (a', _, Ret (Some b)) => Ret (a', inr b) | (_, _, Pan) => Pan | (_, _, UB) => UB end /\
  it_try_fold n a s h = match run (fun s _ x => h s x) a 0 n s with
    | (a', s', Ret None) => Ret (a', inl s') | (a', _, Ret (Some b)) => Ret (a', inr b) | (_, _, Pan) => Pan | (_, _, UB) => UB end /\
  it_fold n a s g = match run (fun s _ x => obind (g s x) (fun s' => Ret (@inl S Empty_set s'))) a 0 n s with
    | (a', s', Ret None) => Ret (a', s') | (_, _, Ret (Some e)) => match e with end | (_, _, Pan) => Pan | (_, _, UB) => UB end.
Proof.
  intros A S B E n a s f g h. split; [apply run_plain|]. split; [apply run_plain|].
  unfold it_fold. generalize 0 at 1 2. revert a s. induction n as [|n IH]; intros a s k; [reflexivity|].
  cbn [fold_from run]. rewrite idx_plain. destruct (idx_st a k) as [a' [x| |]]; cbn [plain obind]; auto.
  destruct (g s x) as [s'| |]; cbn [obind]; auto.
Qed.
Print Assumptions C146_same_outcome.

(** So do the collections: same result, and the same iterator wherever one is returned. *)
Theorem C146_same_collection : forall T E n (a : adapter (option T)) (b : adapter (T + E)),
  collect (option_static (array_static T)) n a = match collect_option n a with
    | (a', _, Ret c) => Ret (a', c) | (_, _, Pan) => Pan | (_, _, UB) => UB end /\
  collect (@result_static T (list T) E (array_static T)) n b = match collect_result n b with
    | (b', _, Ret c) => Ret (b', c) | (_, _, Pan) => Pan | (_, _, UB) => UB end.
Proof.
  intros T E n a b. unfold collect, from_static_iter, collect_option, collect_result. split.
  - rewrite run_plain. cbn [uninit option_static array_static].
    destruct (run _ a 0 n _) as [[a' u] [[c|]| |]]; cbn [obind]; auto; destruct (finish _ _); reflexivity.
  - rewrite run_plain. cbn [uninit result_static array_static].
    destruct (run _ b 0 n _) as [[a' u] [[c|]| |]]; cbn [obind]; auto; destruct (finish _ _); reflexivity.
Qed.
Print Assumptions C146_same_collection.

(** Whatever the adapters and the consumer: a run to the end leaves nothing behind; a run that ends at item [j] (starting from 0)
    leaves in each array the elements after the [j]-th, and nothing before; a panic inside the adapters leaves the [j]-th too in
    the arrays that were not read yet.  These elements are never dropped. *)
Theorem C146_left_partial : forall A S B n (a : adapter A) (s : S) (f : S -> nat -> A -> out (S + B)),
  fresh n a -> (forall s k x, f s k x <> UB) ->
  let '(a', _, r) := run f a 0 n s in
  match r with
  | Ret None => Forall emptied (sources a') /\ length (sources a') = length (sources a)
  | Ret (Some _) => exists j, j < n /\ sources a' = map (after (Datatypes.S j)) (sources a)
  | Pan => exists j i, j < n /\ i <= length (sources a) /\
      sources a' = map (after (Datatypes.S j)) (firstn i (sources a)) ++ map (after j) (skipn i (sources a))
  | UB => False
  end.
Proof.
  intros A S B n a s f F U. pose proof (fresh_lengths n A a F) as L.
  pose proof (run_sources A S B f n (sources a) (fun _ _ => True) ltac:(auto) L n 0 a s eq_refl) as R.
  pose proof (run_plain A S B f n 0 a s) as P.
  destruct (try_safe f n (fun _ _ => True) (fun _ _ => True)) with (m := n) (k := 0) (a := a) (s := s) as [T|[(b & s' & T & _)|(b & y & j & T & _)]];
    auto using fresh_ready; rewrite T in P;
    (assert (sources a = map (after 0) (sources a)) as E0 by (rewrite (map_ext _ _ after_0), map_id; auto));
    specialize (R E0 I); destruct (run f a 0 n s) as [[a' s2] [[y2|]| |]]; try discriminate.
  - destruct R as (j & i & J & Li & Q & _). exists j, i. split; [lia|auto].
  - destruct R as [-> _]. split; [|apply map_length]. apply Forall_map. eapply Forall_impl; [|exact L]. intros q. apply after_all.
  - destruct R as (j2 & J & Q & _). exists j2. split; [lia|auto].
Qed.
Print Assumptions C146_left_partial.

(** Collecting into [Option<[T; N]>]: at the first [None] everything collected so far is forgotten as well. *)
Theorem C146_option_partial : forall T n (a : adapter (option T)) vs, fresh n a ->
  (items n 0 a (map Some vs) -> exists a', collect_option n a = (a', [], Ret (Some vs)) /\ Forall emptied (sources a')) /\
  (forall rest, items n 0 a (map Some vs ++ None :: rest) ->
   exists a', collect_option n a = (a', vs, Ret None) /\ sources a' = map (after (S (length vs))) (sources a)).
Proof.
  intros T n a vs F. pose proof (fresh_lengths n _ a F) as L.
  assert (sources a = map (after 0) (sources a)) as E0 by (rewrite (map_ext _ _ after_0), map_id; auto).
  pose proof (run_sources _ _ _ (fun s k x => write (option_static (array_static T)) s k x) n (sources a)
    (fun u k => exists d, length d = k /\ u = filled n d)) as RS.
  assert (repeat None n = filled n (@nil T)) as EF by (unfold filled; cbn; rewrite Nat.sub_0_r; auto).
  assert (forall (s : Uninit (option_static (array_static T))) k x s', k < n -> (exists d, length d = k /\ s = filled n d) ->
     write (option_static (array_static T)) s k x = Ret (inl s') -> exists d, length d = S k /\ s' = filled n d) as HW.
  { intros s k [x|] s' Hk (d & Ld & ->) W; cbn [write option_static] in W; [|discriminate].
    rewrite <- Ld, filled_write in W by lia. cbn [obind] in W. injection W as <-. exists (d ++ [x]). rewrite app_length. cbn. split; [lia|auto]. }
  specialize (RS HW L n 0 a (repeat None n) eq_refl E0 ltac:(exists []; auto)).
  split.
  - intros It. pose proof (items_length _ _ _ _ _ It) as Ll. rewrite map_length, Nat.sub_0_r in Ll.
    destruct (run_option_somes T n vs [] [] a (fresh_ready _ _ _ F)) as (a' & R & I & E); [rewrite app_nil_r; auto|cbn; lia|].
    cbn [length app Nat.add] in *. rewrite Nat.add_0_r, Ll, <- EF in E. unfold collect_option. rewrite E in *. cbn [run] in *.
    cbn [finish option_static array_static]. rewrite filled_full, all_init_some by auto. cbn [obind]. exists a'. split; auto.
    destruct RS as [-> _]. apply Forall_map. eapply Forall_impl; [|exact L]. intros q. apply after_all.
  - intros rest It. pose proof (items_length _ _ _ _ _ It) as Ll. rewrite app_length, map_length, Nat.sub_0_r in Ll.
    destruct (run_option_somes T n vs (None :: rest) [] a (fresh_ready _ _ _ F)) as (a' & R & I & E); [auto|cbn [length] in *; lia|].
    cbn [length app Nat.add] in *. rewrite Ll, <- EF in E. unfold collect_option. rewrite E in *. cbn [run] in *.
    destruct (both_step _ _ _ _ _ _ R I) as (a2 & Q & _). rewrite (idx_st_ret _ _ _ _ _ Q) in *. cbn [write option_static finish] in *.
    exists a2. rewrite initialised_filled. split; auto. destruct RS as (j & J & -> & d & Ld & Ed).
    apply (f_equal initialised) in Ed. rewrite !initialised_filled in Ed. subst. auto.
Qed.
Print Assumptions C146_option_partial.

(** When the iterator panics at item [j], the [j] elements collected before are forgotten, besides what C146_left_partial says. *)
Theorem C146_option_panic_partial : forall T n (a a' : adapter (option T)) lost, fresh n a -> collect_option n a = (a', lost, Pan) ->
  exists j i, j < n /\ length lost = j /\ i <= length (sources a) /\
    sources a' = map (after (S j)) (firstn i (sources a)) ++ map (after j) (skipn i (sources a)).
Proof.
  intros T n a a' lost F E. pose proof (fresh_lengths n _ a F) as L.
  assert (sources a = map (after 0) (sources a)) as E0 by (rewrite (map_ext _ _ after_0), map_id; auto).
  pose proof (run_sources _ _ _ (fun s k x => write (option_static (array_static T)) s k x) n (sources a)
    (fun u k => exists d, length d = k /\ u = filled n d)) as RS.
  assert (repeat None n = filled n (@nil T)) as EF by (unfold filled; cbn; rewrite Nat.sub_0_r; auto).
  assert (forall (s : Uninit (option_static (array_static T))) k x s', k < n -> (exists d, length d = k /\ s = filled n d) ->
     write (option_static (array_static T)) s k x = Ret (inl s') -> exists d, length d = S k /\ s' = filled n d) as HW.
  { intros s k [x|] s' Hk (d & Ld & ->) W; cbn [write option_static] in W; [|discriminate].
    rewrite <- Ld, filled_write in W by lia. cbn [obind] in W. injection W as <-. exists (d ++ [x]). rewrite app_length. cbn. split; [lia|auto]. }
  specialize (RS HW L n 0 a (repeat None n) eq_refl E0 ltac:(exists []; auto)).
  unfold collect_option in E.
  match type of RS with match ?R with _ => _ end => match type of E with context [run ?f a 0 n ?u] => change (run f a 0 n u) with R in E end;
    destruct R as [[b u] r] end. destruct r as [[y|]| |].
  - injection E as _ _ E. destruct y as [[]|]; discriminate.
  - destruct RS as (_ & d & Ld & ->). injection E as _ _ E. cbn [finish option_static array_static] in E.
    rewrite filled_full, all_init_some in E by auto. discriminate.
  - injection E as <- <-. destruct RS as (j & i & J & Li & Q & d & Ld & ->). exists j, i. rewrite initialised_filled. split; [lia|]. auto.
  - discriminate.
Qed.
Print Assumptions C146_option_panic_partial.

(** The same for [Result<[T; N], E>]; the error itself is returned. *)
Theorem C146_result_partial : forall T E n (a : adapter (T + E)) vs, fresh n a ->
  (items n 0 a (map inl vs) -> exists a', collect_result n a = (a', [], Ret (inl vs)) /\ Forall emptied (sources a')) /\
  (forall e rest, items n 0 a (map inl vs ++ inr e :: rest) ->
   exists a', collect_result n a = (a', vs, Ret (inr e)) /\ sources a' = map (after (S (length vs))) (sources a)).
Proof.
  intros T X n a vs F. pose proof (fresh_lengths n _ a F) as L.
  assert (sources a = map (after 0) (sources a)) as E0 by (rewrite (map_ext _ _ after_0), map_id; auto).
  pose proof (run_sources _ _ _ (fun s k x => write (@result_static T (list T) X (array_static T)) s k x) n (sources a)
    (fun u k => exists d, length d = k /\ u = filled n d)) as RS.
  assert (repeat None n = filled n (@nil T)) as EF by (unfold filled; cbn; rewrite Nat.sub_0_r; auto).
  assert (forall (s : Uninit (@result_static T (list T) X (array_static T))) k x s', k < n -> (exists d, length d = k /\ s = filled n d) ->
     write (@result_static T (list T) X (array_static T)) s k x = Ret (inl s') -> exists d, length d = S k /\ s' = filled n d) as HW.
  { intros s k [x|] s' Hk (d & Ld & ->) W; cbn [write result_static] in W; [|discriminate].
    rewrite <- Ld, filled_write in W by lia. cbn [obind] in W. injection W as <-. exists (d ++ [x]). rewrite app_length. cbn. split; [lia|auto]. }
  specialize (RS HW L n 0 a (repeat None n) eq_refl E0 ltac:(exists []; auto)).
  split.
  - intros It. pose proof (items_length _ _ _ _ _ It) as Ll. rewrite map_length, Nat.sub_0_r in Ll.
    destruct (run_result_oks T X n vs [] [] a (fresh_ready _ _ _ F)) as (a' & R & I & E); [rewrite app_nil_r; auto|cbn; lia|].
    cbn [length app Nat.add] in *. rewrite Nat.add_0_r, Ll, <- EF in E. unfold collect_result. rewrite E in *. cbn [run] in *.
    cbn [finish result_static array_static]. rewrite filled_full, all_init_some by auto. cbn [obind]. exists a'. split; auto.
    destruct RS as [-> _]. apply Forall_map. eapply Forall_impl; [|exact L]. intros q. apply after_all.
  - intros e rest It. pose proof (items_length _ _ _ _ _ It) as Ll. rewrite app_length, map_length, Nat.sub_0_r in Ll.
    destruct (run_result_oks T X n vs (inr e :: rest) [] a (fresh_ready _ _ _ F)) as (a' & R & I & E); [auto|cbn [length] in *; lia|].
    cbn [length app Nat.add] in *. rewrite Ll, <- EF in E. unfold collect_result. rewrite E in *. cbn [run] in *.
    destruct (both_step _ _ _ _ _ _ R I) as (a2 & Q & _). rewrite (idx_st_ret _ _ _ _ _ Q) in *. cbn [write result_static finish] in *.
    exists a2. rewrite initialised_filled. split; auto. destruct RS as (j & J & -> & d & Ld & Ed).
    apply (f_equal initialised) in Ed. rewrite !initialised_filled in Ed. subst. auto.
Qed.
Print Assumptions C146_result_partial.

Theorem C146_result_panic_partial : forall T E n (a a' : adapter (T + E)) lost, fresh n a -> collect_result n a = (a', lost, Pan) ->
  exists j i, j < n /\ length lost = j /\ i <= length (sources a) /\
    sources a' = map (after (S j)) (firstn i (sources a)) ++ map (after j) (skipn i (sources a)).
Proof.
  intros T E n a a' lost F Q0. pose proof (fresh_lengths n _ a F) as L.
  assert (sources a = map (after 0) (sources a)) as E0 by (rewrite (map_ext _ _ after_0), map_id; auto).
  pose proof (run_sources _ _ _ (fun s k x => write (@result_static T (list T) E (array_static T)) s k x) n (sources a)
    (fun u k => exists d, length d = k /\ u = filled n d)) as RS.
  assert (repeat None n = filled n (@nil T)) as EF by (unfold filled; cbn; rewrite Nat.sub_0_r; auto).
  assert (forall (s : Uninit (@result_static T (list T) E (array_static T))) k x s', k < n -> (exists d, length d = k /\ s = filled n d) ->
     write (@result_static T (list T) E (array_static T)) s k x = Ret (inl s') -> exists d, length d = S k /\ s' = filled n d) as HW.
  { intros s k [x|x] s' Hk (d & Ld & ->) W; cbn [write result_static] in W; [|discriminate].
    rewrite <- Ld, filled_write in W by lia. cbn [obind] in W. injection W as <-. exists (d ++ [x]). rewrite app_length. cbn. split; [lia|auto]. }
  specialize (RS HW L n 0 a (repeat None n) eq_refl E0 ltac:(exists []; auto)).
  unfold collect_result in Q0.
  match type of RS with match ?R with _ => _ end => match type of Q0 with context [run ?f a 0 n ?u] => change (run f a 0 n u) with R in Q0 end;
    destruct R as [[b u] r] end. destruct r as [[y|]| |].
  - injection Q0 as _ _ Q0. destruct y as [[]|]; discriminate.
  - destruct RS as (_ & d & Ld & ->). injection Q0 as _ _ Q0. cbn [finish result_static array_static] in Q0.
    rewrite filled_full, all_init_some in Q0 by auto. discriminate.
  - injection Q0 as <- <-. destruct RS as (j & i & J & Li & Q & d & Ld & ->). exists j, i. rewrite initialised_filled. split; [lia|]. auto.
  - discriminate.
Qed.
Print Assumptions C146_result_panic_partial.

(** [checked_add] and [checked_sub] of vectors: when position [length c] is the first that overflows, the results [c] computed
    before it and the elements after it of both vectors are forgotten. *)
Theorem C146_checked_partial : forall A B O (op : A -> B -> option O) a b c a1 x b1 y,
  length b = length a -> Forall3 (fun x y z => op x y = Some z) a1 b1 c ->
  forall a2 b2, a = a1 ++ x :: a2 -> b = b1 ++ y :: b2 -> op x y = None ->
  exists it, vec_checked_st op (length a) a b = (it, c, Ret None) /\
    sources it = [array (repeat None (S (length c)) ++ map Some a2); array (repeat None (S (length c)) ++ map Some b2)].
Proof.
  intros A B O op a b c a1 x b1 y L H3 a2 b2 -> -> E.
  assert (length a1 = length c /\ length b1 = length c /\ map (fun p => op (fst p) (snd p)) (combine a1 b1) = map Some c) as (L1 & L2 & M).
  { clear - H3. induction H3; cbn; auto. destruct IHForall3 as (? & ? & ?). repeat split; try congruence. }
  destruct (checked_items A B O op (length (a1 ++ x :: a2)) (a1 ++ x :: a2) (b1 ++ y :: b2) eq_refl L) as [F I].
  assert (forall (l1 : list A) (r1 : list B) l r, length l1 = length r1 -> combine (l1 ++ l) (r1 ++ r) = combine l1 r1 ++ combine l r) as CA.
  { clear. induction l1 as [|u l1 IH]; intros [|v r1] l r Q; cbn in *; try discriminate; auto. rewrite IH by lia. auto. }
  rewrite CA in I by congruence. rewrite map_app, M in I. cbn [combine map fst snd] in I. rewrite E in I.
  destruct (proj2 (C146_option_partial O _ _ c F) _ I) as (it & Q & S). exists it. split; [exact Q|]. rewrite S.
  unfold it_map, it_zip, into_iter. cbn [sources]. cbn [app map]. unfold after, array. cbn [projT1 projT2].
  assert (forall T (l1 : list T) u l2, length l1 = length c -> skipn (Datatypes.S (length c)) (map Some (l1 ++ u :: l2)) = map Some l2) as SK.
  { clear. intros T l1 u l2 <-. rewrite map_app. cbn [map]. rewrite <- (map_length Some l1). generalize (map Some l1). clear.
    induction l as [|w l IH]; cbn; auto. }
  rewrite !SK by auto. reflexivity.
Qed.
Print Assumptions C146_checked_partial.

(** Witness: [i8] vectors [(1, 100, 2)] and [(1, 28, 3)]; the sum 2 of the first components and both third components are never
    dropped. *)
Theorem C146_refuted : exists it, vec_checked_st ex_checked_i8 3 [1; 100; 2]%Z [1; 28; 3]%Z = (it, [2]%Z, Ret None) /\
  sources it = [array [None; None; Some 2%Z]; array [None; None; Some 3%Z]] /\ ~ Forall emptied (sources it).
Proof.
  eexists. split; [vm_compute; reflexivity|]. split; [reflexivity|].
  intros H. inversion H as [|? ? H1 _]; subst. unfold emptied in H1. cbn in H1.
  inversion H1 as [|? ? _ H2]; subst. inversion H2 as [|? ? _ H3]; subst. inversion H3; discriminate.
Qed.
Print Assumptions C146_refuted.

(** [any] over three owned elements that stops at the second, and a closure that panics there. *)
Example C146_demo :
  fresh 3 (into_iter [5; 7; 9]) /\
  (let '(it, _, r) := run (fun (_ : unit) _ x => Ret (if x =? 7 then inr tt else inl tt)) (into_iter [5; 7; 9]) 0 3 tt in
   r = Ret (Some tt) /\ sources it = [array [None; None; Some 9]]) /\
  (let '(it, _, r) := run (fun (_ : unit) _ x => Ret (@inl unit unit tt))
       (it_zip (it_map (into_iter [5; 7; 9]) (fun _ x => if x =? 7 then Pan else Ret (tt, x)) tt) (into_iter [1; 2; 3])) 0 3 tt in
   r = Pan /\ sources it = [array [None; None; Some 9]; array [None; Some 2; Some 3]]).
Proof. split; [exists [5; 7; 9]; auto|]. split; vm_compute; auto. Qed.

(** Collecting where the third item panics: the two collected numbers are forgotten. *)
Example C146_demo_panic :
  let '(it, lost, r) := collect_option 4 (it_map (into_iter [5; 7; 9; 11]) (fun _ x => if x =? 9 then Pan else Ret (tt, Some (S x))) tt) in
  r = Pan /\ lost = [6; 8] /\ sources it = [array [None; None; None; Some 11]].
Proof. vm_compute. auto. Qed.
