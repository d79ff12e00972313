(** C142: arithmetic on arrays of [i32] by static iterators. *)
From Coq Require Import ZArith List Bool Lia.
From Verif Require Import Base BitSliceModel BitSliceProofs PrimModel Spec StaticIterModel StaticIterSpec StaticIterProofs CompoundIntModel CompoundIntSpec
  PrimProofs PropCompoundInt CodegenModel.
Import ListNotations.
Local Open Scope Z_scope.

Notation i32 := {| ibits := 32; isigned := true |}.

Lemma map_collect_ret {A B} n (a : adapter A) l (f : A -> out B) l' : items n 0 a l -> Forall2 (fun x y => f x = Ret y) l l' ->
  map_collect n a f = Ret l'.
Proof.
  intros I F. unfold map_collect, it_map. destruct (collect_map_out (stateless f) tt n a l l' I) as (a' & ->).
  - clear I. induction F; econstructor; [unfold stateless; rewrite H; reflexivity|auto].
  - reflexivity.
Qed.

Lemma map_collect_pan {A B} n (a : adapter A) l (f : A -> out B) : items n 0 a l -> Forall (fun x => f x <> UB) l ->
  Exists (fun x => f x = Pan) l -> map_collect n a f = Pan.
Proof.
  intros I U X. unfold map_collect, it_map, collect_array, array_from_static_iter, it_fold.
  pose proof (items_length _ _ _ _ _ I) as L. rewrite Nat.sub_0_r in L. 
  pose proof (collect_map_pan (stateless f) n l 0 tt a [] I) as C. rewrite L in C. rewrite C; [reflexivity|]. clear I L C.
  induction l as [|x l IH]; [inversion X|]. inversion U as [|? ? U1 U2]; subst. destruct (f x) as [y| |] eqn:E.
  - apply (breaks_later _ tt x tt y); [unfold stateless; rewrite E; reflexivity|]. apply IH; auto.
    inversion X as [? ? X1|? ? X1]; subst; auto. congruence.
  - apply breaks_here. unfold stateless. rewrite E. reflexivity.
  - congruence.
Qed.

Lemma items_into {T} n (a : list T) : length a = n -> items n 0 (into_iter a) a.
Proof. intros L. cbn. rewrite map_length. auto. Qed.

Lemma items_zip {T} n (a b : list T) : length a = n -> length b = n -> items n 0 (it_zip (into_iter a) (into_iter b)) (combine a b).
Proof. intros La Lb. exists a, b. repeat split; try apply items_into; auto. Qed.

(** One row per index. *)
Fixpoint rows4 {T} (a b c d : list T) : list (T * T * T * T) :=
  match a, b, c, d with
  | x :: a, y :: b, z :: c, u :: d => (x, y, z, u) :: rows4 a b c d
  | _, _, _, _ => []
  end.
Definition row_list {T} (r : T * T * T * T) : list T := let '(x, y, z, u) := r in [x; y; z; u].

Lemma items_many n (a b c d : list Z) : length a = n -> length b = n -> length c = n -> length d = n ->
  items n 0 (zip_all [a; b; c; d]) (map row_list (rows4 a b c d)).
Proof.
  intros La Lb Lc Ld. unfold zip_all. cbn [map]. apply items_all. exists [a; b; c; d]. split; [repeat constructor; apply items_into; auto|].
  rewrite Nat.sub_0_r. split.
  - rewrite map_length. subst n. revert b c d Lb Lc Ld. induction a as [|x a IH]; intros [|y b] [|z c] [|u d] Lb Lc Ld; cbn in *; try lia. rewrite IH; lia.
  - clear La Lb Lc Ld. intros i row. revert i b c d. induction a as [|x a IH]; intros [|i] [|y b] [|z c] [|u d] E; cbn in E; try discriminate.
    + injection E as <-. repeat constructor.
    + apply IH in E. inversion E as [|? ? ? ? E1 E2]; subst. inversion E2 as [|? ? ? ? E3 E4]; subst. inversion E4 as [|? ? ? ? E5 E6]; subst.
      inversion E6 as [|? ? ? ? E7 E8]; subst. inversion E8; subst. repeat constructor; auto.
Qed.

Lemma map_collect_rif {A X} n (a : adapter A) (h : X -> A) l (f : A -> out Z) (vs : X -> list Z) (g : X -> Z) : items n 0 a (map h l) ->
  (forall x, returns_if_fit i32 (vs x) (f (h x)) (g x)) -> returns_if_fit i32 (flat_map vs l) (map_collect n a f) (map g l).
Proof.
  intros I R. split; intros F.
  - apply (map_collect_ret n a (map h l)); auto. clear I. induction l as [|x l IH]; cbn in *; constructor.
    + apply R. apply Forall_app in F. apply F.
    + apply IH. apply Forall_app in F. apply F.
  - apply (map_collect_pan n a (map h l)); auto.
    + apply Forall_map, Forall_forall. intros x _. destruct (Forall_dec (fits i32) (fits_dec i32) (vs x)) as [G|G].
      * rewrite (proj1 (R x) G). discriminate.
      * rewrite (proj2 (R x) G). discriminate.
    + clear I. induction l as [|x l IH]; cbn in F; [elim F; constructor|]. cbn [map].
      destruct (Forall_dec (fits i32) (fits_dec i32) (vs x)) as [G|G].
      * right. apply IH. intros Y. apply F. apply Forall_app. auto.
      * left. apply R, G.
Qed.

Lemma map_collect_red {A X} n (a : adapter A) (h : X -> A) l (f : A -> out Z) (g : X -> Z) : items n 0 a (map h l) ->
  (forall x, exists y, f (h x) = Ret y /\ reduces_to i32 (g x) y) -> exists r, map_collect n a f = Ret r /\ Forall2 (reduces_to i32) (map g l) r.
Proof.
  intros I R. assert (exists r, Forall2 (fun x y => f x = Ret y) (map h l) r /\ Forall2 (reduces_to i32) (map g l) r) as (r & F & G).
  { clear I. induction l as [|x l (r & F & G)]; [exists []; split; constructor|]. destruct (R x) as (y & E & Q). exists (y :: r). split; constructor; auto. }
  exists r. split; auto. apply (map_collect_ret n a (map h l)); auto.
Qed.

(** With overflow checks: the exact results when all intermediate values fit, otherwise a panic. *)
Theorem C142_checked : forall n a b c d, length a = n -> length b = n -> length c = n -> length d = n ->
  returns_if_fit i32 (map (fun '(x, y) => x + y) (combine a b)) (cg_zip_add true n a b) (map (fun '(x, y) => x + y) (combine a b)) /\
  returns_if_fit i32 (map (fun '(x, y) => x * y) (combine a b)) (cg_zip_mul true n a b) (map (fun '(x, y) => x * y) (combine a b)) /\
  returns_if_fit i32 (map Z.opp a) (cg_map_neg true n a) (map Z.opp a) /\
  returns_if_fit i32 (flat_map (fun '(x, y, z, u) => [x * y; x * y * z; x * y * z * u]) (rows4 a b c d))
    (cg_zip_many true n a b c d) (map (fun '(x, y, z, u) => x * y * z * u) (rows4 a b c d)).
Proof.
  intros n a b c d La Lb Lc Ld.
  assert (forall A (g : A -> Z) l, map g l = flat_map (fun x => [g x]) l) as FM by (intros A g l; induction l; cbn; congruence).
  assert (forall v, returns_if_fit i32 [v] (of_res (arith true i32 v)) v) as one.
  { intros v. split; intros F.
    - inversion F; subst. rewrite checked_in by auto. reflexivity.
    - assert (~ fits i32 v) as G by (intros G; apply F; repeat constructor; apply G).
      rewrite arith_out by (unfold fits in G; lia). reflexivity. }
  split; [|split; [|split]].
  - rewrite FM at 1. apply (map_collect_rif n _ (fun p => p)); [rewrite map_id; apply items_zip; auto|]. intros [x y]. apply one.
  - rewrite FM at 1. apply (map_collect_rif n _ (fun p => p)); [rewrite map_id; apply items_zip; auto|]. intros [x y]. apply one.
  - rewrite FM at 1. apply (map_collect_rif n _ (fun p => p)); [rewrite map_id; apply items_into; auto|]. intros x. apply one.
  - apply (map_collect_rif n _ row_list); [apply items_many; auto|]. intros [[[x y] z] u]. cbn [row_list]. unfold int_mul.
    repeat apply rif_cons. apply one.
Qed.
Print Assumptions C142_checked.

(** Without: always the exact results, reduced. *)
Theorem C142_wrapping : forall n a b c d, length a = n -> length b = n -> length c = n -> length d = n ->
  (exists r, cg_zip_add false n a b = Ret r /\ Forall2 (reduces_to i32) (map (fun '(x, y) => x + y) (combine a b)) r) /\
  (exists r, cg_zip_mul false n a b = Ret r /\ Forall2 (reduces_to i32) (map (fun '(x, y) => x * y) (combine a b)) r) /\
  (exists r, cg_map_neg false n a = Ret r /\ Forall2 (reduces_to i32) (map Z.opp a) r) /\
  (exists r, cg_zip_many false n a b c d = Ret r /\ Forall2 (reduces_to i32) (map (fun '(x, y, z, u) => x * y * z * u) (rows4 a b c d)) r).
Proof.
  intros n a b c d La Lb Lc Ld.
  assert (forall v, exists y, of_res (arith false i32 v) = Ret y /\ reduces_to i32 v y) as one.
  { intros v. destruct (released i32 v) as (y & E & R & _); [cbn; lia|]. eauto. }
  split; [|split; [|split]].
  - apply (map_collect_red n _ (fun p => p)); [rewrite map_id; apply items_zip; auto|]. intros [x y]. apply one.
  - apply (map_collect_red n _ (fun p => p)); [rewrite map_id; apply items_zip; auto|]. intros [x y]. apply one.
  - apply (map_collect_red n _ (fun p => p)); [rewrite map_id; apply items_into; auto|]. intros x. apply one.
  - apply (map_collect_red n _ row_list); [apply items_many; auto|]. intros [[[x y] z] u]. cbn [row_list]. unfold int_mul.
    destruct (released i32 (x * y)) as (p & -> & _ & Mp); [cbn; lia|]. cbn [obind].
    destruct (released i32 (p * z)) as (q & -> & _ & Mq); [cbn; lia|]. cbn [obind].
    destruct (released i32 (q * u)) as (r & -> & Rr & _); [cbn; lia|]. exists r. split; auto.
    apply (reduces_mod _ _ _ _ Rr). rewrite <- Zmult_mod_idemp_l, Mq, Zmult_mod_idemp_l.
    rewrite <- Z.mul_assoc, <- Zmult_mod_idemp_l, Mp, Zmult_mod_idemp_l. f_equal. ring.
Qed.
Print Assumptions C142_wrapping.

Example C142_demo : cg_zip_add true 2 [1; 2] [5; 6] = Ret [6; 8] /\ cg_zip_many true 2 [1; 2] [5; 6] [1; 2] [5; 6] = Ret [25; 144] /\
  cg_map_neg true 1 [-2147483648] = Pan /\ cg_map_neg false 1 [-2147483648] = Ret [-2147483648].
Proof. vm_compute. repeat split; reflexivity. Qed.
