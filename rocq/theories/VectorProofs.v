(** Lemmas about vectors. *)
From Coq Require Import List Bool Arith Lia.
From Verif Require Import Base StaticIterModel StaticIterSpec StaticIterProofs VectorModel CompoundsSpec.
Import ListNotations.

Lemma into_items {T} n (l : list T) : length l = n -> items n 0 (into_iter l) l.
Proof. intros H. cbn. rewrite map_length. auto. Qed.

Lemma ref_items {T} n (l : list T) : length l = n -> items n 0 (ref_iter l) l.
Proof. intros H. cbn. auto. Qed.

Lemma into_fresh {T} n (l : list T) : length l = n -> fresh n (into_iter l).
Proof. intros H. exists l. auto. Qed.

Lemma ref_fresh {T} n (l : list T) : length l = n -> fresh n (ref_iter l).
Proof. intros H. cbn. auto. Qed.

Lemma Forall3_length {A B C} (R : A -> B -> C -> Prop) a b c :
  Forall3 R a b c -> length b = length a /\ length c = length a.
Proof. induction 1; cbn; lia. Qed.

Lemma on_pair_threads {A B O} (op : A -> B -> out O) a b c :
  Forall3 (fun x y z => op x y = Ret z) a b c -> threads (on_pair op) tt (combine a b) c.
Proof.
  induction 1 as [|x y z a b c E _ IH]; cbn; [constructor|].
  econstructor; [|exact IH]. cbn. rewrite E. reflexivity.
Qed.

Lemma vec_op_ret {A B O} (op : A -> B -> out O) n a b c : length a = n ->
  Forall3 (fun x y z => op x y = Ret z) a b c -> vec_op op n a b = Ret c.
Proof.
  intros L F. pose proof (Forall3_length _ _ _ _ F) as [Lb Lc].
  destruct (collect_map_out (on_pair op) tt n (it_zip (into_iter a) (into_iter b)) (combine a b) c) as (a' & E).
  - cbn [items it_zip]. exists a, b. split; [apply into_items; auto|]. split; [apply into_items; lia|]. auto.
  - apply on_pair_threads; auto.
  - unfold vec_op, it_map. rewrite E. auto.
Qed.

Lemma vec_op_ref_ret {A B O} (op : A -> B -> out O) n a b c : length a = n ->
  Forall3 (fun x y z => op x y = Ret z) a b c -> vec_op_ref op n a b = Ret c.
Proof.
  intros L F. pose proof (Forall3_length _ _ _ _ F) as [Lb Lc].
  destruct (collect_map_out (on_pair op) tt n (it_zip (into_iter a) (ref_iter b)) (combine a b) c) as (a' & E).
  - cbn [items it_zip]. exists a, b. split; [apply into_items; auto|]. split; [apply ref_items; lia|]. auto.
  - apply on_pair_threads; auto.
  - unfold vec_op_ref, it_map. rewrite E. auto.
Qed.

Lemma on_pair_breaks {A B O} (op : A -> B -> out O) : (forall x y, op x y <> UB) -> forall i a b x y,
  nth_error a i = Some x -> nth_error b i = Some y -> op x y = Pan -> breaks (on_pair op) tt (combine a b).
Proof.
  intros Hop. induction i as [|i IH]; intros [|x0 a] [|y0 b] x y Ha Hb E; try discriminate; cbn in *.
  - injection Ha as ->. injection Hb as ->. apply breaks_here. cbn. rewrite E. auto.
  - destruct (op x0 y0) as [z| |] eqn:E0; [|apply breaks_here; cbn; rewrite E0; auto|elim (Hop _ _ E0)].
    eapply breaks_later; [cbn; rewrite E0; reflexivity|]. eapply IH; eauto.
Qed.

Lemma vec_op_pan {A B O} (op : A -> B -> out O) n a b i x y : (forall x y, op x y <> UB) -> length a = n -> length b = n ->
  nth_error a i = Some x -> nth_error b i = Some y -> op x y = Pan -> vec_op op n a b = Pan /\ vec_op_ref op n a b = Pan.
Proof.
  intros Hop La Lb Ha Hb E. pose proof (on_pair_breaks op Hop i a b x y Ha Hb E) as Br.
  assert (length (combine a b) = n) as L by (rewrite combine_length; lia).
  split; unfold vec_op, vec_op_ref, collect_array, array_from_static_iter, it_map; rewrite <- L at 1;
    erewrite collect_map_pan with (n := n); eauto; cbn [items it_zip]; exists a, b; auto using into_items, ref_items.
Qed.

Lemma array_map_ret {A O} (f : A -> out O) a c : Forall2 (fun x z => f x = Ret z) a c -> array_map f a = Ret c.
Proof. induction 1 as [|x z a c E _ IH]; cbn; auto. rewrite E, IH. auto. Qed.

Lemma array_map_pan {A O} (f : A -> out O) : (forall x, f x <> UB) -> forall a x, In x a -> f x = Pan -> array_map f a = Pan.
Proof.
  intros Hf. induction a as [|x0 a IH]; intros x H E; [contradiction|]. cbn.
  destruct (f x0) as [z| |] eqn:E0; cbn; auto; [|elim (Hf _ E0)].
  destruct H as [->|H]; [congruence|]. rewrite (IH x); auto.
Qed.

Lemma each_pair_ret {A B} (op : A -> B -> out A) a b c : Forall3 (fun x y z => op x y = Ret z) a b c -> each_pair op a b = Ret c.
Proof. induction 1 as [|x y z a b c E _ IH]; cbn; auto. rewrite E, IH. auto. Qed.

Lemma zip_fold_pure {T} (add f : T -> T -> T) : forall a b acc,
  zip_fold (fun x y => Ret (add x y)) (fun x y => Ret (f x y)) a b acc
  = Ret (fold_left add (map (fun p => f (fst p) (snd p)) (combine a b)) acc).
Proof. induction a as [|x a IH]; intros [|y b] acc; cbn; auto. Qed.
