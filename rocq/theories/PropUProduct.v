(** C161: the product of an iterator of [U<N>]s. *)
From Coq Require Import ZArith List Bool Lia Permutation Setoid.
From Verif Require Import Base Words Spec Arith BitSliceModel BitSliceProofs ElementModel UModel UProofs IModel PropU PropUExpr
  CompoundIntModel StaticIterModel UCompoundModel PropUCompound.
Import ListNotations.
Local Open Scope Z_scope.

(** The product of a list of integers, and its prefixes. *)
Definition zproduct (l : list Z) : Z := fold_right Z.mul 1 l.

Lemma zproduct_app l r : zproduct (l ++ r) = zproduct l * zproduct r.
Proof. unfold zproduct. induction l as [|x l IH]; cbn [app fold_right]; [lia|]. rewrite IH. ring. Qed.

Lemma foldR_congruent dbg n : (0 < n)%nat -> forall l s z, Forall (element_of n) l -> element_of n s -> congruent (cap 8 n) (val 8 s) z ->
  dbg = true /\ foldR (fun acc b => u_mul dbg acc b) l s = Panic \/
  exists c, foldR (fun acc b => u_mul dbg acc b) l s = Ok c /\ element_of n c /\ congruent (cap 8 n) (val 8 c) (z * zproduct (map (val 8) l)).
Proof.
  intros Hn. induction l as [|x l IH]; intros s z F Os V; cbn [foldR map zproduct fold_right].
  - right. exists s. split; auto. split; auto. rewrite Z.mul_1_r. auto.
  - inversion F; subst. destruct (mul_yields (Unsigned dbg) n Hn s x) as [[P E]|(c & E & Oc & Vc)]; auto; unfold bq_mul in E.
    + left. injection P as ->. split; auto. destruct (u_mul true s x) eqn:M; try discriminate; auto.
      unfold u_mul, unwrap in M. destruct (elem_mul_checked 8 s x); discriminate.
    + destruct (u_mul dbg s x) as [c'| |] eqn:M; try discriminate. injection E as ->. cbn [bind].
      destruct (IH c (z * val 8 x)) as [H|(d & E & Od & Vd)]; auto; [rewrite Vc; cbn [number]; rewrite V; reflexivity|].
      right. exists d. split; auto. split; auto. rewrite Vd. fold (zproduct (map (val 8) l)). rewrite Z.mul_assoc. reflexivity.
Qed.

Lemma foldR_fits dbg n : (0 < n)%nat -> forall l s, Forall (element_of n) l -> element_of n s ->
  (forall k, (k <= length l)%nat -> val 8 s * zproduct (map (val 8) (firstn k l)) < cap 8 n) ->
  exists c, foldR (fun acc b => u_mul dbg acc b) l s = Ok c /\ element_of n c /\ val 8 c = val 8 s * zproduct (map (val 8) l).
Proof.
  intros Hn. induction l as [|x l IH]; intros s F Os H; cbn [foldR map zproduct fold_right].
  - exists s. rewrite Z.mul_1_r. auto.
  - inversion F as [|? ? [Wx Lx] Fl]; subst. destruct Os as [Ws Ls].
    destruct (C27_mul s x Ws Wx ltac:(congruence)) as (_ & [c (E & _ & _ & Wc & Lc & Vc)]).
    { specialize (H 1%nat ltac:(cbn; lia)). cbn in H. rewrite Ls. rewrite Z.mul_1_r in H. auto. }
    rewrite E. cbn [bind]. destruct (IH c) as (d & Ed & Od & Vd); auto; [split; congruence| |].
    + intros k Hk. specialize (H (S k) ltac:(cbn; lia)). cbn [firstn map zproduct fold_right] in H. rewrite Vc, <- Z.mul_assoc. exact H.
    + exists d. split; auto. split; auto. rewrite Vd, Vc. fold (zproduct (map (val 8) l)). ring.
Qed.

Lemma one_element n : element_of n (u_one n).
Proof. split; [apply wf_u_one|apply length_u_one]. Qed.

(** Without overflow checks: the product modulo 2^(8N), whatever the length.  With checks: that, or a panic. *)
Theorem C161_wrapping : forall dbg n l, (0 < n)%nat -> Forall (element_of n) l ->
  dbg = true /\ u_product dbg n l = Panic \/
  exists c, u_product dbg n l = Ok c /\ element_of n c /\ val 8 c = zproduct (map (val 8) l) mod 2 ^ Z.of_nat (8 * n).
Proof.
  intros dbg n l Hn F. unfold u_product.
  destruct (foldR_congruent dbg n Hn l (u_one n) 1 F (one_element n)) as [H|(c & E & [W L] & V)]; auto.
  { rewrite val_u_one by auto. reflexivity. }
  right. exists c. split; auto. split; [split; auto|]. apply congruent_mod in V; [|apply cap_pos].
  rewrite <- cap_two, <- (Z.mul_1_l (zproduct _)), <- V. symmetry. apply Z.mod_small. pose proof (val_bound 8 c W). rewrite L in *. auto.
Qed.
Print Assumptions C161_wrapping.

(** In every build the product itself, if the product of every prefix fits. *)
Theorem C161_exact : forall dbg n l, (0 < n)%nat -> Forall (element_of n) l ->
  (forall k, zproduct (map (val 8) (firstn k l)) < 2 ^ Z.of_nat (8 * n)) ->
  exists c, u_product dbg n l = Ok c /\ element_of n c /\ val 8 c = zproduct (map (val 8) l).
Proof.
  intros dbg n l Hn F H. rewrite <- cap_two in H. unfold u_product.
  destruct (foldR_fits dbg n Hn l (u_one n) F (one_element n)) as (c & E & O & V).
  { intros k _. rewrite val_u_one, Z.mul_1_l by auto. auto. }
  exists c. split; auto. split; auto. rewrite V, val_u_one by auto. ring.
Qed.
Print Assumptions C161_exact.

(** So too if no factor is zero and the product fits: nothing is lost on the way. *)
Theorem C161_no_zero : forall dbg n l, (0 < n)%nat -> Forall (element_of n) l -> ~ In 0 (map (val 8) l) ->
  zproduct (map (val 8) l) < 2 ^ Z.of_nat (8 * n) ->
  exists c, u_product dbg n l = Ok c /\ element_of n c /\ val 8 c = zproduct (map (val 8) l).
Proof.
  intros dbg n l Hn F N H. apply C161_exact; auto. intros k.
  assert (forall l, Forall (element_of n) l -> ~ In 0 (map (val 8) l) -> 1 <= zproduct (map (val 8) l)) as P.
  { clear. induction l as [|x l IH]; intros F N; cbn [map zproduct fold_right] in *; [lia|]. inversion F as [|? ? [W _]]; subst. pose proof (val_nonneg 8 x W).
    assert (val 8 x <> 0) by (intros E; apply N; left; auto). specialize (IH ltac:(auto) (fun I => N (or_intror I))). fold (zproduct (map (val 8) l)). nia. }
  assert (zproduct (map (val 8) l) = zproduct (map (val 8) (firstn k l)) * zproduct (map (val 8) (skipn k l))) as E.
  { rewrite <- (firstn_skipn k l) at 1. rewrite map_app. apply zproduct_app. }
  rewrite <- (firstn_skipn k l) in F, N. apply Forall_app in F. destruct F as [F1 F2]. rewrite map_app in N.
  pose proof (P _ F1 (fun I => N (in_or_app _ _ _ (or_introl I)))). pose proof (P _ F2 (fun I => N (in_or_app _ _ _ (or_intror I)))). nia.
Qed.
Print Assumptions C161_no_zero.

(** Without overflow checks the order of the factors does not matter, and products of parts multiply to the product of the whole. *)
Theorem C161_any_order : forall n l l', (0 < n)%nat -> Forall (element_of n) l -> Permutation l l' ->
  u_product false n l = u_product false n l' /\
  forall l1 l2 a b, l = l1 ++ l2 -> u_product false n l1 = Ok a -> u_product false n l2 = Ok b -> u_product false n l = u_mul false a b.
Proof.
  intros n l l' Hn F P. assert (forall l c, Forall (element_of n) l -> u_product false n l = Ok c ->
    element_of n c /\ val 8 c = zproduct (map (val 8) l) mod cap 8 n) as G.
  { intros m c Fm E. destruct (C161_wrapping false n m Hn Fm) as [[H _]|(c' & E' & O & V)]; [discriminate|]. rewrite cap_two.
    assert (c' = c) as <- by congruence. auto. }
  assert (forall l, Forall (element_of n) l -> exists c, u_product false n l = Ok c) as T.
  { intros m Fm. destruct (C161_wrapping false n m Hn Fm) as [[H _]|(c' & E' & _)]; [discriminate|eauto]. }
  assert (forall c d, element_of n c -> element_of n d -> val 8 c = val 8 d -> c = d) as I.
  { intros c d [Wc Lc] [Wd Ld] E. apply (val_inj 8); auto; try lia; congruence. }
  split.
  - assert (Forall (element_of n) l') as F' by (eapply Permutation_Forall; eauto).
    destruct (T l F) as [c Ec], (T l' F') as [d Ed]. rewrite Ec, Ed. f_equal. destruct (G l c F Ec) as [Oc Vc], (G l' d F' Ed) as [Od Vd].
    apply I; auto. rewrite Vc, Vd. f_equal. clear - P. induction P; cbn [map zproduct fold_right]; auto; try lia.
    + fold (zproduct (map (val 8) l)) (zproduct (map (val 8) l')). lia.
  - intros l1 l2 a b -> Ea Eb. apply Forall_app in F. destruct F as [F1 F2].
    destruct (T (l1 ++ l2)) as [c Ec]; [apply Forall_app; auto|]. destruct (G (l1 ++ l2) c ltac:(apply Forall_app; auto) Ec) as [Oc Vc].
    destruct (G l1 a F1 Ea) as [[Wa La] Va], (G l2 b F2 Eb) as [[Wb Lb] Vb].
    destruct (C27_mul a b Wa Wb ltac:(congruence)) as ((d & Ed & Wd & Ld & Vd) & _). rewrite Ec, Ed. f_equal. apply I; auto; [split; congruence|].
    rewrite Vc, Vd, La, Va, Vb, <- Z.mul_mod by (pose proof (cap_pos 8 n); lia). f_equal. rewrite map_app. apply zproduct_app.
Qed.
Print Assumptions C161_any_order.

(** 3 * 5 * 7 = 105 in one byte; 200 * 200 * 65535 * 0 panics with overflow checks although the product fits, and is 0 without; the empty product is 1. *)
Example C161_demo : u_product true 1 [[3]; [5]; [7]] = Ok [105] /\ ~ In 0 (map (val 8) [[3]; [5]; [7]]) /\ element_of 1 [7] /\
  u_product true 2 [[200; 0]; [200; 0]; [255; 255]; [0; 0]] = Panic /\ u_product false 2 [[200; 0]; [200; 0]; [255; 255]; [0; 0]] = Ok [0; 0] /\
  u_product true 2 [] = Ok [1; 0].
Proof. repeat split; try (vm_compute; reflexivity); try (vm_compute; intuition discriminate). repeat constructor; vm_compute; intuition discriminate. Qed.
