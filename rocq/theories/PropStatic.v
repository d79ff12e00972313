(** C84, C85: static iterators. *)
From Coq Require Import List Bool Arith Lia.
From Verif Require Import Base StaticIterModel StaticIterSpec StaticIterProofs.
Import ListNotations.

Lemma visited_ready n k A (a : adapter A) : ready n k a -> visited a k.
Proof. apply ready_logs. Qed.

(** ** C84 *)

(** Any consumer over any stack with any stateful, possibly panicking closures: no undefined
    behaviour, and every source sees 0, 1, 2, ... *)
Theorem C84_fold_in_order A S n (a : adapter A) (s : S) f :
  fresh n a -> (forall s x, f s x <> UB) ->
  it_fold n a s f = Pan \/ exists a' s', it_fold n a s f = Ret (a', s') /\ visited a' n.
Proof.
  intros H Hf. destruct (fold_safe f n Hf n 0 a s (fresh_ready _ _ _ H)) as [E|(a' & s' & E & R)]; auto.
  right. exists a', s'. split; auto. apply (visited_ready n); auto.
Qed.

Theorem C84_collect_in_order A n (a : adapter A) :
  fresh n a -> collect_array n a = Pan \/ exists a' l, collect_array n a = Ret (a', l) /\ visited a' n.
Proof. intros H. apply (C84_fold_in_order A (list A) n a []); auto. discriminate. Qed.

Theorem C84_try_fold_in_order A S E n (a : adapter A) (s : S) (f : S -> A -> out (S + E)) :
  fresh n a -> (forall s x, f s x <> UB) ->
  it_try_fold n a s f = Pan \/
  (exists a' s', it_try_fold n a s f = Ret (a', inl s') /\ visited a' n) \/
  (exists a' e k, it_try_fold n a s f = Ret (a', inr e) /\ 1 <= k <= n /\ visited a' k).
Proof.
  intros H Hf.
  destruct (try_safe (fun s _ x => f s x) n (fun _ _ => True) (fun _ _ => True)) with (m := n) (k := 0) (a := a) (s := s)
    as [P|[(a' & s' & P & R & _)|(a' & b & j & P & Hj & R & _)]]; auto.
  - apply fresh_ready; auto.
  - right. left. exists a', s'. split; auto. apply (visited_ready n); auto.
  - right. right. exists a', b, (Datatypes.S j). split; auto. split; [lia|]. apply (visited_ready n); auto.
Qed.

Theorem C84_any_in_order A C n (a : adapter A) (c : C) f :
  fresh n a -> (forall c x, f c x <> UB) ->
  it_any n a c f = Pan \/
  (exists a', it_any n a c f = Ret (a', false) /\ visited a' n) \/
  (exists a' k, it_any n a c f = Ret (a', true) /\ 1 <= k <= n /\ visited a' k).
Proof.
  intros H Hf. unfold it_any.
  destruct (C84_try_fold_in_order A C unit n a c (fun c x => obind (f c x) (fun '(c', b) => Ret (if b : bool then inr tt else inl c'))))
    as [P|[(a' & s' & P & V)|(a' & [] & j & P & V)]]; auto; try (rewrite P; cbn [obind]; eauto 6).
  intros c0 x. specialize (Hf c0 x). destruct (f c0 x) as [[c' []]| |]; cbn; congruence.
Qed.

Theorem C84_all_in_order A C n (a : adapter A) (c : C) f :
  fresh n a -> (forall c x, f c x <> UB) ->
  it_all n a c f = Pan \/
  (exists a', it_all n a c f = Ret (a', true) /\ visited a' n) \/
  (exists a' k, it_all n a c f = Ret (a', false) /\ 1 <= k <= n /\ visited a' k).
Proof.
  intros H Hf. unfold it_all.
  destruct (C84_try_fold_in_order A C unit n a c (fun c x => obind (f c x) (fun '(c', b) => Ret (if b : bool then inl c' else inr tt))))
    as [P|[(a' & s' & P & V)|(a' & [] & j & P & V)]]; auto; try (rewrite P; cbn [obind]; eauto 6).
  intros c0 x. specialize (Hf c0 x). destruct (f c0 x) as [[c' []]| |]; cbn; congruence.
Qed.

(** What the consumers compute. *)
Theorem C84_collect_items A n (a : adapter A) l : items n 0 a l -> exists a', collect_array n a = Ret (a', l).
Proof. intros H. apply (fold_whole _ n a l); auto. apply (ofold_snoc l []). Qed.

Theorem C84_fold_items A S n (a : adapter A) l (s : S) f :
  items n 0 a l -> exists a', it_fold n a s (fun s x => Ret (f s x)) = Ret (a', fold_left f l s).
Proof. intros H. apply (fold_whole _ n a l); auto. apply ofold_pure. Qed.

Theorem C84_sum_items A zero add n (a : adapter A) l : items n 0 a l ->
  exists a', it_sum zero (fun s x => Ret (add s x)) n a = Ret (a', fold_left add l zero).
Proof. intros H. apply C84_fold_items; auto. Qed.

Theorem C84_product_items A one mul n (a : adapter A) l : items n 0 a l ->
  exists a', it_product one (fun s x => Ret (mul s x)) n a = Ret (a', fold_left mul l one).
Proof. intros H. apply C84_fold_items; auto. Qed.

(** [any] and [all] stop at the first element that decides, and not before. *)
Theorem C84_any_items A n (a : adapter A) l p : fresh n a -> items n 0 a l ->
  exists a', it_any n a tt (pure p) = Ret (a', existsb p l) /\ visited a' (looked_at p l).
Proof.
  intros F H. pose proof (items_length _ _ _ _ _ H) as L. rewrite Nat.sub_0_r in L.
  destruct (any_run p n l 0 a (fresh_ready _ _ _ F) H) as (a' & E & R); [lia|].
  exists a'. split; [|apply (visited_ready n); auto]. unfold it_any, it_try_fold. rewrite L in E. rewrite E. cbn [obind].
  destruct (existsb p l); auto.
Qed.

Theorem C84_all_items A n (a : adapter A) l p : fresh n a -> items n 0 a l ->
  exists a', it_all n a tt (pure p) = Ret (a', forallb p l) /\ visited a' (looked_at (fun x => negb (p x)) l).
Proof.
  intros F H. pose proof (items_length _ _ _ _ _ H) as L. rewrite Nat.sub_0_r in L.
  destruct (all_run p n l 0 a (fresh_ready _ _ _ F) H) as (a' & E & R); [lia|].
  exists a'. split; [|apply (visited_ready n); auto]. unfold it_all, it_try_fold. rewrite L in E. rewrite E. cbn [obind].
  destruct (forallb p l); auto.
Qed.

(** The same in plain terms: an array, a reference to one, a range; mapped, zipped, numbered. *)
Theorem C84_plain A B n (l : list A) (l' : list B) (f : A -> B) : length l = n -> length l' = n ->
  (exists a, collect_array n (into_iter l) = Ret (a, l)) /\
  (exists a, collect_array n (ref_iter l) = Ret (a, l)) /\
  (exists a, collect_array n range_iter = Ret (a, seq 0 n)) /\
  (exists a, collect_array n (it_map (into_iter l) (pure f) tt) = Ret (a, map f l)) /\
  (exists a, collect_array n (it_zip (into_iter l) (ref_iter l')) = Ret (a, combine l l')) /\
  (exists a, collect_array n (it_enumerate (into_iter l)) = Ret (a, combine (seq 0 n) l)) /\
  (exists a, collect_array n (it_map (it_zip range_iter (into_iter l)) (pure snd) tt) = Ret (a, l)).
Proof.
  intros L L'.
  assert (forall X (k : list X), length k = n -> items n 0 (into_iter k) k) as into_items by (intros X k H; cbn; rewrite map_length; auto).
  assert (forall X (k : list X), length k = n -> items n 0 (ref_iter k) k) as ref_items by (intros X k H; cbn; auto).
  assert (forall X Y (g : X -> Y) k, threads (pure g) tt k (map g k)) as T.
  { intros X Y g k. induction k as [|x k IH]; cbn; [constructor|]. econstructor; [reflexivity|auto]. }
  repeat apply conj; apply C84_collect_items.
  - apply into_items; auto.
  - apply ref_items; auto.
  - cbn. rewrite Nat.sub_0_r. auto.
  - cbn [items it_map]. exists l. split; auto.
  - cbn [items it_zip]. exists l, l'. split; [apply into_items; auto|]. split; auto.
  - cbn [items it_enumerate]. exists l. rewrite Nat.sub_0_r. split; auto.
  - cbn [items it_map it_zip]. exists (combine (seq 0 n) l). split.
    + exists (seq 0 n), l. split; [cbn; rewrite Nat.sub_0_r; auto|]. auto.
    + replace l with (map snd (combine (seq 0 n) l)) at 2; auto. clear -L. subst n. generalize 0.
      induction l; intros k; cbn; f_equal; auto.
Qed.

(** ** C85 *)

Lemma option_start T n (a : adapter (option T)) vs rest : fresh n a -> items n 0 a (map Some vs ++ rest) ->
  exists a', ready n (length vs) a' /\ items n (length vs) a' rest /\ length vs + length rest = n /\
  collect (option_static (array_static T)) n a =
  obind (try_from (fun s k x => write (option_static (array_static T)) s k x) a' (length vs) (length rest) (filled n vs))
   (fun '(a', r) => obind (finish (option_static (array_static T)) r) (fun c => Ret (a', c))).
Proof.
  intros F H. pose proof (items_length _ _ _ _ _ H) as L. rewrite Nat.sub_0_r, app_length, map_length in L.
  destruct (option_run n vs rest [] a (fresh_ready _ _ _ F) H) as (a' & R & I & E); [cbn; lia|].
  exists a'. split; auto. split; auto. split; auto. cbn [app] in E. rewrite <- E, L.
  unfold filled at 1. cbn [map app length]. rewrite Nat.sub_0_r. reflexivity.
Qed.

Theorem C85_option_all_some T n (a : adapter (option T)) vs : fresh n a -> items n 0 a (map Some vs) ->
  exists a', collect (option_static (array_static T)) n a = Ret (a', Some vs) /\ visited a' n.
Proof.
  intros F H. destruct (option_start T n a vs [] F) as (a' & R & I & L & E); [rewrite app_nil_r; auto|].
  rewrite E. cbn [length] in *. rewrite Nat.add_0_r in L. cbn [try_from obind finish option_static array_static].
  rewrite filled_full, all_init_some by auto. cbn [obind]. exists a'. split; auto.
  rewrite L in R. apply (visited_ready n); auto.
Qed.

Theorem C85_option_first_none T n (a : adapter (option T)) vs rest :
  fresh n a -> items n 0 a (map Some vs ++ None :: rest) ->
  exists a', collect (option_static (array_static T)) n a = Ret (a', None) /\ visited a' (S (length vs)).
Proof.
  intros F H. destruct (option_start T n a vs (None :: rest) F H) as (a' & R & I & L & E).
  rewrite E. cbn [length try_from]. destruct (both_step _ _ _ _ _ _ R I) as (a2 & E2 & R2 & _).
  rewrite E2. cbn [obind write option_static finish]. exists a2. split; auto. apply (visited_ready n); auto.
Qed.

Lemma result_start T E n (a : adapter (T + E)) vs rest : fresh n a -> items n 0 a (map inl vs ++ rest) ->
  exists a', ready n (length vs) a' /\ items n (length vs) a' rest /\ length vs + length rest = n /\
  collect (result_static (array_static T)) n a =
  obind (try_from (fun s k x => write (result_static (array_static T)) s k x) a' (length vs) (length rest) (filled n vs))
   (fun '(a', r) => obind (finish (result_static (array_static T)) r) (fun c => Ret (a', c))).
Proof.
  intros F H. pose proof (items_length _ _ _ _ _ H) as L. rewrite Nat.sub_0_r, app_length, map_length in L.
  destruct (result_run n vs rest [] a (fresh_ready _ _ _ F) H) as (a' & R & I & Q); [cbn; lia|].
  exists a'. split; auto. split; auto. split; auto. cbn [app] in Q. rewrite <- Q, L.
  unfold filled at 1. cbn [map app length]. rewrite Nat.sub_0_r. reflexivity.
Qed.

Theorem C85_result_all_ok T E n (a : adapter (T + E)) vs : fresh n a -> items n 0 a (map inl vs) ->
  exists a', collect (result_static (array_static T)) n a = Ret (a', inl vs) /\ visited a' n.
Proof.
  intros F H. destruct (result_start T E n a vs [] F) as (a' & R & I & L & Q); [rewrite app_nil_r; auto|].
  rewrite Q. cbn [length] in *. rewrite Nat.add_0_r in L. cbn [try_from obind finish result_static array_static].
  rewrite filled_full, all_init_some by auto. cbn [obind]. exists a'. split; auto.
  rewrite L in R. apply (visited_ready n); auto.
Qed.

Theorem C85_result_first_err T E n (a : adapter (T + E)) vs e rest :
  fresh n a -> items n 0 a (map inl vs ++ inr e :: rest) ->
  exists a', collect (result_static (array_static T)) n a = Ret (a', inr e) /\ visited a' (S (length vs)).
Proof.
  intros F H. destruct (result_start T E n a vs (inr e :: rest) F H) as (a' & R & I & L & Q).
  rewrite Q. cbn [length try_from]. destruct (both_step _ _ _ _ _ _ R I) as (a2 & E2 & R2 & _).
  rewrite E2. cbn [obind write result_static finish]. exists a2. split; auto. apply (visited_ready n); auto.
Qed.

(** Arbitrary closures: no uninitialised element is ever returned. *)
Theorem C85_option_no_ub T n (a : adapter (option T)) : fresh n a ->
  collect (option_static (array_static T)) n a = Pan \/
  exists a' r k, collect (option_static (array_static T)) n a = Ret (a', r) /\ k <= n /\ visited a' k /\
    match r with Some l => length l = n /\ k = n | None => 1 <= k end.
Proof.
  intros F. unfold collect, from_static_iter.
  destruct (try_safe (fun s k x => write (option_static (array_static T)) s k x) n
    (fun u k => k <= n /\ exists d, length d = k /\ u = filled n d) (fun b _ => b = None)) with (m := n) (k := 0) (a := a)
    (s := uninit (option_static (array_static T)) n)
    as [P|[(a' & s' & P & R & _ & d & Hd & ->)|(a' & b & j & P & Hj & R & ->)]]; auto.
  - intros s k [v|] (_ & d & <- & ->) Hk; cbn [write option_static]; [|discriminate].
    rewrite filled_write by auto. discriminate.
  - intros s k [v|] s' (Hk & d & <- & ->) Q; cbn [write option_static] in Q; [|discriminate].
    destruct (Nat.eq_dec (length d) n) as [En|En].
    + exfalso. rewrite filled_full in Q by auto. cbn [write array_static] in Q.
      rewrite map_length, Nat.ltb_irrefl in Q. discriminate.
    + rewrite filled_write in Q by lia. cbn [obind] in Q. injection Q as <-. split; [lia|].
      exists (d ++ [v]). rewrite app_length. cbn. split; auto. lia.
  - intros s k [v|] b (Hk & d & <- & ->) Q; cbn [write option_static] in Q; [|congruence].
    destruct (Nat.eq_dec (length d) n) as [En|En].
    + exfalso. rewrite filled_full in Q by auto. cbn [write array_static] in Q.
      rewrite map_length, Nat.ltb_irrefl in Q. discriminate.
    + rewrite filled_write in Q by lia. discriminate.
  - apply fresh_ready; auto.
  - split; [lia|]. exists []. split; auto. unfold filled. cbn. rewrite Nat.sub_0_r. auto.
  - left. rewrite P. auto.
  - right. rewrite P. cbn [obind finish option_static array_static]. rewrite filled_full, all_init_some by auto. cbn [obind].
    exists a', (Some d), n. repeat split; auto. apply (visited_ready n); auto.
  - right. rewrite P. cbn [obind finish option_static]. exists a', None, (S j). repeat split; auto; try lia.
    apply (visited_ready n); auto.
Qed.

(** ** The hypotheses are met by a stack of every adapter kind, with a stateful closure. *)
Definition ex_count : nat -> nat * (nat * nat) -> out (nat * nat) :=
  fun c '(i, (x, y)) => Ret (c + x, c + i * y).
Definition ex_stack : adapter nat :=
  it_map (it_enumerate (it_zip (into_iter [3; 1; 4]) (ref_iter [10; 20; 30]))) ex_count 100.
Example C84_demo_fresh : fresh 3 ex_stack.
Proof. cbn. repeat split; try (exists [3; 1; 4]; auto). intros c [i [x y]]. discriminate. Qed.
Example C84_demo_items : items 3 0 ex_stack [100; 123; 164].
Proof.
  cbn. exists [(0, (3, 10)); (1, (1, 20)); (2, (4, 30))]. split.
  - exists [(3, 10); (1, 20); (4, 30)]. split; auto. exists [3; 1; 4], [10; 20; 30]. auto.
  - repeat (econstructor; [reflexivity|]). constructor.
Qed.
Example C84_demo_collect : exists a', collect_array 3 ex_stack = Ret (a', [100; 123; 164]).
Proof. apply (C84_collect_items nat 3 ex_stack). apply C84_demo_items. Qed.
Example C84_demo_zip_items : items 2 0 (zip_all [[1; 2]; [3; 4]; [5; 6]]) [[1; 3; 5]; [2; 4; 6]].
Proof.
  cbn. exists [[1; 2]; [3; 4]; [5; 6]]. cbn. repeat split; auto.
  intros [|[|[|i]]] row E; cbn in E; try discriminate; injection E as <-; repeat constructor.
Qed.
Example C84_demo_zip_fresh : fresh 2 (zip_all [[1; 2]; [3; 4]; [5; 6]]).
Proof. cbn. repeat split; [exists [1; 2]|exists [3; 4]|exists [5; 6]]; auto. Qed.
Example C84_demo_any : exists a', it_any 4 (into_iter [5; 8; 1; 8]) tt (pure (Nat.eqb 8)) = Ret (a', true) /\ visited a' 2.
Proof. eexists. split; [reflexivity|]. repeat constructor. Qed.
Example C85_demo_none : exists a', collect (option_static (array_static nat)) 3 (into_iter [Some 1; None; Some 3]) = Ret (a', None) /\ visited a' 2.
Proof.
  apply (C85_option_first_none nat 3 _ [1] [Some 3]).
  - exists [Some 1; None; Some 3]. auto.
  - cbn. auto.
Qed.
Example C85_demo_err : exists a', collect (result_static (array_static nat)) 3 (into_iter [inl 1; inr false; inr true]) = Ret (a', inr false) /\ visited a' 2.
Proof.
  apply (C85_result_first_err nat bool 3 _ [1] false [inr true]).
  - exists [inl 1; inr false; inr true]. auto.
  - cbn. auto.
Qed.
(** Driving a source twice would be undefined behaviour in the model. *)
Example C85_demo_twice : obind (idx (into_iter [7]) 0) (fun '(a, _) => idx a 0) = UB.
Proof. reflexivity. Qed.

Print Assumptions C84_fold_in_order.
Print Assumptions C84_collect_in_order.
Print Assumptions C84_try_fold_in_order.
Print Assumptions C84_any_in_order.
Print Assumptions C84_all_in_order.
Print Assumptions C84_collect_items.
Print Assumptions C84_fold_items.
Print Assumptions C84_sum_items.
Print Assumptions C84_product_items.
Print Assumptions C84_any_items.
Print Assumptions C84_all_items.
Print Assumptions C84_plain.
Print Assumptions C85_option_all_some.
Print Assumptions C85_option_first_none.
Print Assumptions C85_result_all_ok.
Print Assumptions C85_result_first_err.
Print Assumptions C85_option_no_ub.
