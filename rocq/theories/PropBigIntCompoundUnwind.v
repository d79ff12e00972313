(** Property C159: caught panics of operations on vectors, matrices and complex numbers of BigInts. *)
From Coq Require Import ZArith List Bool Lia Permutation.
From Verif Require Import Base Words Spec BitSliceModel InternModel InternProofs BigIntModel BigIntSpec BigIntProofs BigIntOps BigIntSafe BigIntRun
  BigIntUnwindModel BigIntUnwindProofs VectorModel BigIntCompoundModel BigIntCompoundUnwindModel BigIntCompoundUnwindProofs PropBigInt.
Import ListNotations.
Local Open Scope Z_scope.

(** ** Specification *)

(** The call returns BigInts [outs], or panics and leaves nothing behind; the other BigInts [hs] keep their values and every reference
    count is the number of BigInts that refer to the slot.  The process does not abort. *)
Definition clean {A} (P : Z) (st : istore) (hs : list Z) (outs : A -> list Z) (e : ending A) : Prop :=
  match e with
  | Returned r st' => consistent P st' (outs r ++ hs) /\ keeps st st' hs
  | Unwound st' => consistent P st' hs /\ keeps st st' hs
  | Aborted | Starved => False
  end.

(** ** The calls are those of C158 *)

Lemma mbind_ok {A B} (m : M A) (f : A -> M B) st a st' : m st = Ok (a, st') -> mbind m f st = f a st'.
Proof. intros H. unfold mbind. rewrite H. reflexivity. Qed.
Lemma mbind_panic {A B} (m : M A) (f : A -> M B) st : m st = Panic -> mbind m f st = Panic.
Proof. intros H. unfold mbind. rewrite H. reflexivity. Qed.
Lemma mbind_timeout {A B} (m : M A) (f : A -> M B) st : m st = Timeout -> mbind m f st = Timeout.
Proof. intros H. unfold mbind. rewrite H. reflexivity. Qed.
Lemma agrees_times {B} dbg hs l r (f : Z -> U B) g : (forall c, agrees (f c) (g c)) ->
  agrees (ubind (u_times dbg hs l r) f) (let! p := bi_clone dbg l in let! q := bi_clone dbg r in let! c := by_val (operate dbg OMul) p q in g c).
Proof.
  intros H. apply (agrees_ext _ (mbind (let! p := bi_clone dbg l in let! q := bi_clone dbg r in by_val (operate dbg OMul) p q) g)).
  - intros st. rewrite mbind_assoc. apply mbind_cong. intros p st'. apply mbind_assoc.
  - apply agrees_bind; auto. unfold u_times. agree; try apply agrees_own_all; agree. apply agrees_val.
Qed.

Theorem C159_agrees : forall dbg o a b s A B ca cb row col col2,
  agrees (uv_op dbg o a b) (bv_op dbg o a b) /\ agrees (uv_op_ref dbg o a b) (bv_op_ref dbg o a b) /\
  agrees (uv_scalar dbg o a s) (bv_scalar dbg o a s) /\ agrees (uv_scalar_ref dbg o a s) (bv_scalar_ref dbg o a s) /\
  agrees (as_u (uv_assign dbg o a b)) (bv_assign dbg o a b) /\ agrees (as_u (uv_assign_ref dbg o a b)) (bv_op_ref dbg o a b) /\
  agrees (as_u (uv_assign_scalar dbg o a s)) (bv_assign_scalar dbg o a s) /\ agrees (as_u (uv_assign_scalar_ref dbg o a s)) (bv_scalar_ref dbg o a s) /\
  agrees (um_mul dbg row col col2 A B) (bm_mul dbg row col col2 A B) /\
  agrees (uc_op dbg o ca cb) (bc_op dbg o ca cb) /\ agrees (uc_mul dbg ca cb) (bc_mul dbg ca cb) /\
  agrees (uc_div dbg ca cb) (bc_div dbg ca cb) /\ agrees (uc_div_scalar dbg ca s) (bc_div_scalar dbg ca s).
Proof.
  intros dbg o a b s A B ca cb row col col2.
  assert (forall l, agrees (u_map (fun l => let? r := owning l (leaf (bi_clone dbg s)) in u_by_val (u_operate dbg o) l r) [] l)
    (each (fun l => let! r := bi_clone dbg s in by_val (operate dbg o) l r) l)) as Hs.
  { intros l. apply agrees_map. intros x. agree. apply agrees_val. }
  assert (forall (l : list Z) (f : Z * Z -> M Z), each f (map (fun x => (x, s)) l) = each (fun x => f (x, s)) l) as Hm.
  { intros l f. induction l as [|x l IH]; cbn [each map]; [reflexivity|]. rewrite IH. reflexivity. }
  split; [apply agrees_collect; intros []; apply agrees_val|].
  split; [apply agrees_collect; intros []; apply agrees_val_ref|].
  split; [unfold uv_scalar, bv_scalar, u_drop; agree; apply Hs|].
  split; [apply agrees_map; intros; apply agrees_val_ref|].
  split; [apply (agrees_update _ _ (fun '(l, r) => assign_val (operate dbg o) l r)); intros; apply agrees_assign_val|].
  split; [apply (agrees_update _ _ (fun '(l, r) => by_val_ref (operate dbg o) l r)); intros; apply agrees_assign_ref|].
  split.
  { unfold bv_assign_scalar. rewrite <- (Hm a (fun '(l, s) => let! r := bi_clone dbg s in assign_val (operate dbg o) l r)).
    set (upd := u_update (fun x s => let? y := leaf (bi_clone dbg s) in u_assign_val (u_operate dbg o) x y) (fun _ => []) [] (map (fun x => (x, s)) a)).
    assert (agrees (as_u upd) (each (fun '(l, s) => let! r := bi_clone dbg s in assign_val (operate dbg o) l r) (map (fun x => (x, s)) a))) as H.
    { apply (agrees_update _ _ (fun '(l, s) => let! r := bi_clone dbg s in assign_val (operate dbg o) l r)). intros. agree. apply agrees_assign_val. }
    intros st. specialize (H st). unfold as_u, uv_assign_scalar in *. fold upd.
    unfold ubind, owning. destruct (upd st) as [v e]. cbn [fst snd]. destruct e as [[] st'|st'| |]; cbn [fst snd].
    - unfold u_drop, leaf. destruct (bi_drop s st') as [[[] st2]| |] eqn:Ed; rewrite (mbind_ok _ _ _ _ _ H); unfold mbind; rewrite Ed; reflexivity.
    - destruct (bi_drop s st') as [[[] st2]| |]; apply (mbind_panic _ _ _ H).
    - apply (mbind_panic _ _ _ H).
    - apply (mbind_timeout _ _ _ H). }
  split.
  { unfold bv_scalar_ref. rewrite <- (Hm a (fun '(l, s) => by_val_ref (operate dbg o) l s)).
    apply (agrees_update _ _ (fun '(l, r) => by_val_ref (operate dbg o) l r)); intros; apply agrees_assign_ref. }
  assert (forall i j k, agrees (um_term dbg A B i j k) (bm_term dbg A B i j k)) as Ht.
  { intros i j k. unfold um_term, bm_term. agree. apply agrees_val. }
  assert (forall i j ks out, agrees (um_sum dbg A B i j ks out) (bm_sum dbg A B i j ks out)) as Hu.
  { intros i j. induction ks as [|k ks IH]; intros out; cbn [um_sum bm_sum]; agree; auto; try apply agrees_val; try apply Ht. }
  split.
  { unfold um_mul, bm_mul. agree; try apply agrees_drop_all. apply agrees_own_all. apply agrees_collect. intros i.
    apply agrees_collect. intros j. agree; [apply Ht|apply Hu]. }
  split; [unfold uc_op, bc_op; agree; try apply agrees_own_all; apply agrees_val|].
  split; [|split].
  - unfold uc_mul, bc_mul. repeat (apply agrees_times; intros). agree; try apply agrees_own_all; apply agrees_val.
  - unfold uc_div, bc_div. do 2 (apply agrees_times; intros). apply agrees_bind; [apply agrees_own_all, agrees_val|intros].
    do 2 (apply agrees_times; intros). agree; try apply agrees_own_all; agree; apply agrees_val.
  - unfold uc_div_scalar, bc_div_scalar. do 2 (apply agrees_times; intros). unfold u_drop. agree; try apply agrees_own_all; agree; apply agrees_val.
Qed.
Print Assumptions C159_agrees.

(** ** Operations that leave nothing behind *)

Lemma usafe_clean {A} P n ins refs (u : U A) outs st hs : usafe P n refs ins u outs any -> calm u ->
  consistent P st (ins ++ hs) -> room P hs n -> incl refs hs -> clean P st hs outs (u st).
Proof.
  intros H C Hc Hr Hi. specialize (H st hs Hc Hr Hi). specialize (C st). unfold clean. destruct (u st) as [r st'|st'| |]; auto.
  destruct H as (H1 & H2 & _). auto.
Qed.

Theorem C159_scalar_partial : forall dbg o P st hs a s, arithmetic o = true ->
  (consistent P st (s :: a ++ hs) -> room P hs (4 + Z.of_nat (length a)) -> clean P st hs (fun c => c) (uv_scalar dbg o a s st)) /\
  (consistent P st (a ++ hs) -> In s hs -> room P hs (2 + Z.of_nat (length a)) -> clean P st hs (fun c => c) (uv_scalar_ref dbg o a s st)).
Proof.
  intros dbg o P st hs a s Ho. split.
  - intros Hc Hr. apply (usafe_clean P (4 + Z.of_nat (length a)) (s :: a) []); auto; [apply usafe_scalar; lia| |intros x []].
    unfold uv_scalar. calm_go. apply calm_map. intros. calm_go.
  - intros Hc Hs Hr. apply (usafe_clean P (2 + Z.of_nat (length a)) a [s]); auto; [apply usafe_scalar_ref; lia| |intros x [<-|[]]; auto].
    apply calm_map. intros. apply calm_by_val_ref. auto.
Qed.
Print Assumptions C159_scalar_partial.

(** The product panics when the left matrix has no columns. *)
Theorem C159_product_partial : forall dbg P st hs row col col2 a b,
  consistent P st (concat a ++ concat b ++ hs) ->
  room P hs (4 + Z.of_nat (length (concat a) + length (concat b) + col2 + row * col2)) ->
  clean P st hs (@concat Z) (um_mul dbg row col col2 a b st).
Proof.
  intros dbg P st hs row col col2 a b Hc Hr.
  apply (usafe_clean P (4 + Z.of_nat (length (concat a) + length (concat b) + col2 + row * col2)) (concat a ++ concat b) []); auto.
  - apply usafe_mul. lia.
  - unfold um_mul. calm_go. apply calm_collect. intros i. apply calm_collect. intros j. calm_go.
    generalize (seq 1 (col - 1)) as ks. intros ks. revert a0. induction ks as [|k ks IH]; intros out; cbn [um_sum]; calm_go. apply IH.
  - rewrite <- app_assoc. auto.
  - intros x [].
Qed.
Print Assumptions C159_product_partial.

Theorem C159_complex_partial : forall dbg o P st hs ra ia rb ib s, arithmetic o = true -> room P hs 14 ->
  (consistent P st (ra :: ia :: rb :: ib :: hs) ->
   clean P st hs (fun c => [real c; imag c]) (uc_op dbg o (Cx ra ia) (Cx rb ib) st) /\
   clean P st hs (fun c => [real c; imag c]) (uc_mul dbg (Cx ra ia) (Cx rb ib) st) /\
   clean P st hs (fun c => [real c; imag c]) (uc_div dbg (Cx ra ia) (Cx rb ib) st)) /\
  (consistent P st (ra :: ia :: s :: hs) -> clean P st hs (fun c => [real c; imag c]) (uc_div_scalar dbg (Cx ra ia) s st)).
Proof.
  intros dbg o P st hs ra ia rb ib s Ho Hr.
  assert (incl [] hs) as Hi by (intros x []).
  split; [intros Hc; split; [|split]|intros Hc].
  - apply (usafe_clean P 14 [ra; ia; rb; ib] []); auto; [apply (usafe_c_op P 14 dbg o (Cx ra ia) (Cx rb ib)); lia|unfold uc_op; calm_go].
  - apply (usafe_clean P 14 [ra; ia; rb; ib] []); auto; [apply (usafe_c_mul P 14 dbg (Cx ra ia) (Cx rb ib)); lia|unfold uc_mul; calm_go].
  - apply (usafe_clean P 14 [ra; ia; rb; ib] []); auto; [apply (usafe_c_div P 14 dbg (Cx ra ia) (Cx rb ib)); lia|unfold uc_div; calm_go].
  - apply (usafe_clean P 14 [ra; ia; s] []); auto; [apply (usafe_c_div_scalar P 14 dbg (Cx ra ia) s); lia|unfold uc_div_scalar; calm_go].
Qed.
Print Assumptions C159_complex_partial.

(** ** Vector op Vector: the elements not reached are never dropped *)

Lemma combine_nth_pair {A B} k (a : list A) (b : list B) x y : nth_error (combine a b) k = Some (x, y) -> nth_error a k = Some x /\ nth_error b k = Some y.
Proof.
  revert a b. induction k as [|k IH]; intros [|x' a] [|y' b]; cbn; try discriminate.
  - intros Q. split; congruence.
  - apply IH.
Qed.
Lemma combine_firstn2 {A B} k (a : list A) (b : list B) : combine (firstn k a) (firstn k b) = firstn k (combine a b).
Proof. revert a b. induction k as [|k IH]; intros [|x a] [|y b]; cbn; auto. f_equal. apply IH. Qed.
Lemma firstn_skipn_perm (n : nat) (l : list Z) : Permutation l (firstn n l ++ skipn n l).
Proof. rewrite firstn_skipn. reflexivity. Qed.
Lemma live_room P hs l n : room P hs (n + Z.of_nat (length l)) -> room P (l ++ hs) n.
Proof. unfold room. rewrite live_app. pose proof (live_le_length l). lia. Qed.
Lemma concat_single (l : list Z) : concat (map (fun h => [h]) l) = l.
Proof. induction l; cbn; congruence. Qed.

(** [takes x]: the BigInts of the operands that belong to position [x]. *)
Lemma collect_ends {A} P n refs (f : A -> U Z) (takes : A -> list Z) w :
  (forall x, calm (f x)) -> (forall x, (length (takes x) <= w)%nat) ->
  forall l done st hs, (forall x refs', In x l -> incl refs refs' -> usafe P n refs' (takes x) (f x) one any) -> incl refs hs -> consistent P st (done ++ concat (map takes l) ++ hs) -> room P hs (n + Z.of_nat (length done + (w + 1) * length l)) ->
  match u_collect (fun h => [h]) f done l st with
  | Returned c st' => consistent P st' (c ++ hs) /\ keeps st st' hs
  | Unwound st' => exists k x c st1, nth_error l k = Some x /\ consistent P st' (concat (map takes (skipn (S k) l)) ++ hs) /\ keeps st st' hs /\
      u_collect (fun h => [h]) f done (firstn k l) st = Returned c st1 /\ (exists st2, f x st1 = Unwound st2)
  | _ => False
  end.
Proof.
  intros Hcalm Hw. induction l as [|x l IH]; intros done st hs Hf Hi Hc Hr; cbn [u_collect].
  - cbn. cbn in Hc. split; [exact Hc|apply keeps_refl].
  - assert (length (concat (map takes l)) <= w * length l)%nat as Ll.
    { clear - Hw. induction l as [|y l IH]; cbn [map concat length]; [lia|]. rewrite app_length. specialize (Hw y). lia. }
    pose proof (usafe_own_all P (n + Z.of_nat (length done)) refs done (takes x) (f x) one any) as G.
    rewrite concat_single.
    assert (usafe P (n + Z.of_nat (length done) - Z.of_nat (length done)) (done ++ refs) (takes x) (f x) one any) as G0.
    { replace (n + Z.of_nat (length done) - Z.of_nat (length done)) with n by lia. apply Hf; [left; auto|]. intros z Hz. apply in_app_iff. auto. }
    specialize (G G0 st (concat (map takes l) ++ hs)).
    assert (consistent P st ((done ++ takes x) ++ concat (map takes l) ++ hs)) as Hc'.
    { cbn [map concat] in Hc. rewrite <- !app_assoc. rewrite <- app_assoc in Hc. exact Hc. }
    assert (room P (concat (map takes l) ++ hs) (n + Z.of_nat (length done))) as Hr'.
    { apply live_room. eapply room_le; [|exact Hr]. cbn [length]. nia. }
    specialize (G Hc' Hr' ltac:(intros z Hz; apply in_app_iff; right; auto)).
    pose proof (calm_own_all done (f x) (Hcalm x) st) as Ns.
    unfold ubind. destruct (owning_all done (f x) st) as [y st1|st1| |] eqn:E; try contradiction.
    + destruct G as (C1 & K1 & _).
      specialize (IH (done ++ [y]) st1 hs ltac:(intros x' refs' Hx'; apply Hf; right; auto) Hi).
      assert (consistent P st1 ((done ++ [y]) ++ concat (map takes l) ++ hs)) as C1' by exact C1.
      specialize (IH C1'). assert (room P hs (n + Z.of_nat (length (done ++ [y]) + (w + 1) * length l))) as Hr2.
      { eapply room_le; [|exact Hr]. rewrite app_length. cbn [length]. nia. }
      specialize (IH Hr2).
      assert (keeps st st1 hs) as K1' by (eapply keeps_incl; [exact K1|intros z Hz; apply in_app_iff; auto]).
      destruct (u_collect (fun h => [h]) f (done ++ [y]) l st1) as [c st'|st'| |] eqn:E2; try contradiction.
      * destruct IH as [H1 H2]. split; auto. eapply keeps_trans; eauto.
      * destruct IH as (k & x' & c & st2 & N & C2 & K2 & E3 & E4). exists (S k), x', c, st2. split; [exact N|]. split; [exact C2|].
        split; [eapply keeps_trans; eauto|]. split; [|exact E4]. cbn [firstn u_collect]. rewrite concat_single. unfold ubind. rewrite E. exact E3.
    + destruct G as [C1 K1]. exists 0%nat, x, done, st. split; [reflexivity|]. split; [exact C1|].
      split; [eapply keeps_incl; [exact K1|intros z Hz; apply in_app_iff; auto]|]. split; [reflexivity|].
      clear - E. revert st1 E. induction done as [|h done IH]; intros st1 E; cbn [owning_all fold_right] in E; [eauto|].
      unfold owning in E at 1. fold (owning_all done (f x)) in E. destruct (owning_all done (f x) st) as [r s|s| |]; try discriminate E. eauto.
Qed.

Lemma skipn_combine {A B} k (a : list A) (b : list B) : skipn k (combine a b) = combine (skipn k a) (skipn k b).
Proof.
  revert a b. induction k as [|k IH]; intros [|x a] [|y b]; cbn; auto. destruct (skipn k a); reflexivity.
Qed.
Lemma pairs_perm (a b : list Z) : length a = length b -> Permutation (concat (map (fun p => [fst p; snd p]) (combine a b))) (a ++ b).
Proof.
  revert b. induction a as [|x a IH]; intros [|y b]; cbn; try discriminate; auto. intros Q. apply perm_skip.
  apply Permutation_cons_app. apply IH. congruence.
Qed.
Lemma firsts_concat (a b : list Z) : length a = length b -> concat (map (fun p => [fst p]) (combine a b)) = a.
Proof. revert b. induction a as [|x a IH]; intros [|y b]; cbn; try discriminate; auto. intros Q. f_equal. apply IH. congruence. Qed.
Lemma unwound_panics {A} (u : U A) m st st' : agrees u m -> u st = Unwound st' -> m st = Panic.
Proof. intros H E. specialize (H st). rewrite E in H. exact H. Qed.

Theorem C159_vectors_partial : forall dbg o P st hs a b, arithmetic o = true -> length a = length b ->
  consistent P st (a ++ b ++ hs) -> room P hs (3 + 3 * Z.of_nat (length a)) ->
  match uv_op dbg o a b st with
  | Returned c st' => consistent P st' (c ++ hs) /\ keeps st st' hs
  | Unwound st' =>
      (** The panic came from position [k]; what lies behind it in the operands is leaked, nothing else is. *)
      exists k x y c st1, nth_error a k = Some x /\ nth_error b k = Some y /\
      bv_op dbg o (firstn k a) (firstn k b) st = Ok (c, st1) /\ by_val (operate dbg o) x y st1 = Panic /\
      consistent P st' (skipn (S k) a ++ skipn (S k) b ++ hs) /\ keeps st st' hs
  | _ => False
  end.
Proof.
  intros dbg o P st hs a b Ho Hl Hc Hr.
  pose proof (collect_ends P 3 [] (fun '(l, r) => u_by_val (u_operate dbg o) l r) (fun p => [fst p; snd p]) 2) as G.
  specialize (G ltac:(intros [l r]; apply calm_by_val; auto) ltac:(intros; cbn; lia) (combine a b) [] st hs).
  specialize (G ltac:(intros [l r] refs' _ _; cbn [fst snd]; eapply usafe_weaken; [apply (usafe_by_val P 3); lia|lia|apply incl_refl|reflexivity|
    intros c _; split; [reflexivity|exact I]]) ltac:(intros x [])).
  assert (consistent P st ([] ++ concat (map (fun p => [fst p; snd p]) (combine a b)) ++ hs)) as Hc'.
  { cbn [app]. eapply con_perm; [|exact Hc]. rewrite app_assoc. apply Permutation_app_tail. symmetry. apply pairs_perm. auto. }
  specialize (G Hc'). assert (room P hs (3 + Z.of_nat (@length Z [] + (2 + 1) * length (combine a b)))) as Hr'.
  { rewrite combine_length, <- Hl, Nat.min_id. eapply room_le; [|exact Hr]. cbn [length]. lia. }
  specialize (G Hr'). fold (uv_op dbg o a b) in G. destruct (uv_op dbg o a b st) as [c st'|st'| |]; try contradiction; auto.
  destruct G as (k & [x y] & c & st1 & N & C1 & K1 & E1 & (st2 & E2)). destruct (combine_nth_pair _ _ _ _ _ N) as [Na Nb].
  exists k, x, y, c, st1. split; [exact Na|]. split; [exact Nb|]. split.
  { pose proof (proj1 (C159_agrees dbg o (firstn k a) (firstn k b) 0 [] [] (Cx 0 0) (Cx 0 0) 0 0 0) st) as Ag. unfold uv_op in Ag.
    rewrite combine_firstn2, E1 in Ag. exact Ag. }
  split; [eapply unwound_panics; [apply agrees_val|exact E2]|]. split; [|exact K1].
  eapply con_perm; [|exact C1]. rewrite app_assoc. apply Permutation_app_tail. rewrite skipn_combine. apply pairs_perm.
  rewrite !skipn_length. lia.
Qed.
Print Assumptions C159_vectors_partial.

Theorem C159_borrowed_partial : forall dbg o P st hs a b, arithmetic o = true -> length a = length b ->
  consistent P st (a ++ hs) -> incl b hs -> room P hs (2 + 2 * Z.of_nat (length a)) ->
  match uv_op_ref dbg o a b st with
  | Returned c st' => consistent P st' (c ++ hs) /\ keeps st st' hs
  | Unwound st' =>
      exists k x y c st1, nth_error a k = Some x /\ nth_error b k = Some y /\
      bv_op_ref dbg o (firstn k a) (firstn k b) st = Ok (c, st1) /\ by_val_ref (operate dbg o) x y st1 = Panic /\
      consistent P st' (skipn (S k) a ++ hs) /\ keeps st st' hs
  | _ => False
  end.
Proof.
  intros dbg o P st hs a b Ho Hl Hc Hb Hr.
  pose proof (collect_ends P 2 b (fun '(l, r) => u_by_val_ref (u_operate dbg o) l r) (fun p => [fst p]) 1) as G.
  specialize (G ltac:(intros [l r]; apply calm_by_val_ref; auto) ltac:(intros; cbn; lia) (combine a b) [] st hs).
  specialize (G ltac:(intros [l r] refs' Hin Hi; cbn [fst snd]; eapply usafe_weaken; [apply (usafe_by_val_ref P 2 refs'); [lia|right; apply Hi;
    eapply in_combine_r; eauto]|lia|apply incl_refl|reflexivity|intros c _; split; [reflexivity|exact I]]) Hb).
  rewrite firsts_concat in G by auto. specialize (G Hc).
  assert (room P hs (2 + Z.of_nat (@length Z [] + (1 + 1) * length (combine a b)))) as Hr'.
  { rewrite combine_length, <- Hl, Nat.min_id. eapply room_le; [|exact Hr]. cbn [length]. lia. }
  specialize (G Hr'). fold (uv_op_ref dbg o a b) in G. destruct (uv_op_ref dbg o a b st) as [c st'|st'| |]; try contradiction; auto.
  destruct G as (k & [x y] & c & st1 & N & C1 & K1 & E1 & (st2 & E2)). destruct (combine_nth_pair _ _ _ _ _ N) as [Na Nb].
  exists k, x, y, c, st1. split; [exact Na|]. split; [exact Nb|]. split.
  { pose proof (proj1 (proj2 (C159_agrees dbg o (firstn k a) (firstn k b) 0 [] [] (Cx 0 0) (Cx 0 0) 0 0 0)) st) as Ag. unfold uv_op_ref in Ag.
    rewrite combine_firstn2, E1 in Ag. exact Ag. }
  split; [eapply unwound_panics; [apply agrees_val_ref|exact E2]|]. split; [|exact K1].
  rewrite skipn_combine, firsts_concat in C1; [exact C1|]. rewrite !skipn_length. lia.
Qed.
Print Assumptions C159_borrowed_partial.

(** ** Assigning operators: the vector stays with the caller, changed up to the position that panicked *)

(** What a call [a op= _] leaves: the target is the vector [v] afterwards.  From the position of the panic on it is as it was. *)
Definition assigned (P : Z) (st : istore) (hs a : list Z) (r : list Z * ending unit) : Prop :=
  let '(v, e) := r in length v = length a /\
  match e with
  | Returned _ st' => consistent P st' (v ++ hs) /\ keeps st st' hs
  | Unwound st' => consistent P st' (v ++ hs) /\ exists k, (k < length a)%nat /\ skipn k v = skipn k a /\ keeps st st' (skipn k a ++ hs)
  | Aborted | Starved => False
  end.

(** One element: replaced, or kept when the operator panics. *)
Definition replaces (P n : Z) (refs : list Z) (x : Z) (own : list Z) (u : U Z) : Prop :=
  forall st hs, consistent P st (x :: own ++ hs) -> room P hs n -> incl refs hs ->
  match u st with
  | Returned c st' => consistent P st' (c :: hs) /\ keeps st st' hs
  | Unwound st' => consistent P st' (x :: hs) /\ keeps st st' (x :: hs)
  | _ => False
  end.
Lemma room_cons P h hs n : room P hs (n + 1) -> room P (h :: hs) n.
Proof. intros H. apply (live_room P hs [h]). exact H. Qed.
Lemma replaces_val P n refs dbg o x y : arithmetic o = true -> 3 <= n -> replaces P n refs x [y] (u_assign_val (u_operate dbg o) x y).
Proof.
  intros Ho Hn st hs Hc Hr Hi. unfold u_assign_val, ubind.
  pose proof (own_new P 2 [x] y (u_operate dbg o x y) nonnz) as G.
  specialize (G ltac:(apply usafe_operate; [lia|right; left; auto|left; auto]) st (x :: hs)).
  assert (consistent P st ([y] ++ x :: hs)) as Hc' by (eapply con_perm; [|exact Hc]; apply perm_swap).
  assert (room P (x :: hs) 2) as Hr' by (apply room_cons; eapply room_le; [|exact Hr]; lia).
  specialize (G Hc' Hr' ltac:(intros z [<-|[]]; left; auto)).
  pose proof (calm_own y _ (calm_operate dbg o x y Ho) st) as Nt.
  destruct (owning y (u_operate dbg o x y) st) as [c st1|st1| |]; try contradiction; [|exact G].
  destruct G as (C1 & K1 & _). cbn [app] in C1.
  assert (consistent P st1 (x :: y :: c :: hs)) as C1' by (eapply con_perm; [|exact C1]; perm).
  destruct (drop_spec P st1 _ x C1') as (st2 & E2 & C2 & K2). destruct (drop_spec P st2 _ y C2) as (st3 & E3 & C3 & K3).
  unfold u_drop, leaf. rewrite E2, E3. cbn. split; auto.
  eapply keeps_trans; [eapply keeps_incl; [exact K1|intros z Hz; right; auto]|].
  eapply keeps_trans; [eapply keeps_incl; [exact K2|intros z Hz; right; right; auto]|]. eapply keeps_incl; [exact K3|intros z Hz; right; auto].
Qed.
Lemma replaces_ref P n refs dbg o x y : arithmetic o = true -> 2 <= n -> In y refs -> replaces P n refs x [] (u_assign_ref (u_operate dbg o) x y).
Proof.
  intros Ho Hn Hy st hs Hc Hr Hi. cbn [app] in Hc. unfold u_assign_ref, ubind.
  pose proof (usafe_operate P 1 [x; y] dbg o x y ltac:(lia) ltac:(left; auto) ltac:(right; left; auto) st (x :: hs)) as G.
  assert (room P (x :: hs) 1) as Hr' by (apply room_cons; eapply room_le; [|exact Hr]; lia).
  specialize (G Hc Hr' ltac:(intros z [<-|[<-|[]]]; [left|right]; auto)).
  pose proof (calm_operate dbg o x y Ho st) as Nt.
  destruct (u_operate dbg o x y st) as [c st1|st1| |]; try contradiction; [|exact G].
  destruct G as (C1 & K1 & _). cbn [app one] in C1.
  assert (consistent P st1 (x :: c :: hs)) as C1' by (eapply con_perm; [|exact C1]; apply perm_swap).
  destruct (drop_spec P st1 _ x C1') as (st2 & E2 & C2 & K2).
  unfold u_drop, leaf. rewrite E2. cbn. split; auto.
  eapply keeps_trans; [eapply keeps_incl; [exact K1|intros z Hz; right; auto]|]. eapply keeps_incl; [exact K2|intros z Hz; right; auto].
Qed.
Lemma replaces_scalar P n refs dbg o x s : arithmetic o = true -> 4 <= n -> In s refs ->
  replaces P n refs x [] (let? y := leaf (bi_clone dbg s) in u_assign_val (u_operate dbg o) x y).
Proof.
  intros Ho Hn Hs st hs Hc Hr Hi. cbn [app] in Hc. unfold ubind at 1, leaf at 1.
  pose proof (mcalm_clone dbg s st) as Nt.
  destruct (bi_clone dbg s st) as [[y st1]| |] eqn:E.
  - assert (consistent P st ([] ++ x :: hs)) as Hc0 by exact Hc.
    destruct (safe_clone P 1 [s] dbg s ltac:(lia) ltac:(left; auto) st (x :: hs) Hc0) with (r := y) (st' := st1) as (C1 & K1 & _); auto.
    { apply room_cons. eapply room_le; [|exact Hr]; lia. } { intros z [<-|[]]. right. auto. }
    cbn [one app] in C1. pose proof (replaces_val P n refs dbg o x y Ho ltac:(lia) st1 hs) as G.
    assert (consistent P st1 (x :: [y] ++ hs)) as C1' by (eapply con_perm; [|exact C1]; apply perm_swap).
    specialize (G C1' Hr Hi). destruct (u_assign_val _ x y st1) as [c st2|st2| |]; auto.
    + destruct G as [C2 K2]. split; auto. eapply keeps_trans; [|exact K2]. eapply keeps_incl; [exact K1|intros z Hz; right; auto].
    + destruct G as [C2 K2]. split; auto. eapply keeps_trans; eauto.
  - split; [exact Hc|apply keeps_refl].
  - elim Nt. reflexivity.
Qed.

Lemma own_all_unwinds {A} P (u : U A) st st1 L : u st = Unwound st1 -> forall hs, consistent P st1 (L ++ hs) ->
  exists st2, owning_all L u st = Unwound st2 /\ consistent P st2 hs /\ keeps st1 st2 hs.
Proof.
  intros E. induction L as [|h L IH]; intros hs Hc.
  - exists st1. split; [exact E|]. split; [exact Hc|apply keeps_refl].
  - destruct (IH (h :: hs)) as (st2 & E2 & C2 & K2).
    { eapply con_perm; [|exact Hc]. apply Permutation_middle. }
    destruct (drop_spec P st2 hs h C2) as (st3 & E3 & C3 & K3). exists st3. cbn [owning_all fold_right]. unfold owning at 1.
    fold (owning_all L u). rewrite E2, E3. split; auto. split; auto. eapply keeps_trans; [|exact K3].
    eapply keeps_incl; [exact K2|intros z Hz; right; auto].
Qed.
Lemma own_all_returns {A} (u : U A) st r st1 L : u st = Returned r st1 -> owning_all L u st = Returned r st1.
Proof. intros E. induction L as [|h L IH]; [exact E|]. cbn [owning_all fold_right]. unfold owning at 1. fold (owning_all L u). rewrite IH. reflexivity. Qed.

Lemma update_ends {A} P n refs (f : Z -> A -> U Z) later (own : A -> list Z) w :
  (forall r, later r = concat (map own r)) -> (forall y, (length (own y) <= w)%nat) ->
  forall l done st hs, (forall x y, In (x, y) l -> replaces P n refs x (own y) (f x y)) -> incl refs hs ->
  consistent P st (done ++ map fst l ++ concat (map own (map snd l)) ++ hs) ->
  room P hs (n + Z.of_nat (length done + (w + 1) * length l)) ->
  let '(v, e) := u_update f later done l st in length v = (length done + length l)%nat /\
  match e with
  | Returned _ st' => consistent P st' (v ++ hs) /\ keeps st st' hs
  | Unwound st' => consistent P st' (v ++ hs) /\
      exists k, (k < length l)%nat /\ skipn (length done + k) v = skipn k (map fst l) /\ keeps st st' (skipn k (map fst l) ++ hs)
  | _ => False
  end.
Proof.
  intros Hl Hw. induction l as [|[x y] l IH]; intros done st hs Hf Hi Hc Hr; cbn [u_update].
  - split; [cbn [length]; lia|]. cbn in Hc. split; [exact Hc|apply keeps_refl].
  - assert (length (concat (map own (map snd l))) <= w * length l)%nat as Ll.
    { clear - Hw. induction l as [|q l IH]; cbn [map concat length]; [lia|]. rewrite app_length. specialize (Hw (snd q)). lia. }
    set (rest := concat (map own (map snd l))) in *. cbn [map concat fst snd] in Hc. fold rest in Hc.
    pose proof (Hf x y (or_introl eq_refl) st (done ++ map fst l ++ rest ++ hs)) as G.
    assert (consistent P st (x :: own y ++ done ++ map fst l ++ rest ++ hs)) as Hc'.
    { eapply con_perm; [|exact Hc]. rewrite <- app_assoc. cbn [app]. symmetry. etransitivity; [|apply Permutation_middle]. apply perm_skip.
      etransitivity; [apply Permutation_app_swap_app|]. apply Permutation_app_head. apply Permutation_app_swap_app. }
    assert (room P (done ++ map fst l ++ rest ++ hs) n) as Hr'.
    { rewrite !app_assoc. rewrite <- app_assoc. rewrite app_assoc. apply live_room. eapply room_le; [|exact Hr].
      rewrite !app_length, map_length. cbn [length]. nia. }
    specialize (G Hc' Hr' ltac:(intros z Hz; rewrite !in_app_iff; auto)).
    rewrite Hl. fold rest. destruct (f x y st) as [c st1|st1| |] eqn:E; try contradiction.
    + rewrite (own_all_returns _ _ _ _ rest E). destruct G as [C1 K1].
      specialize (IH (done ++ [c]) st1 hs ltac:(intros; apply Hf; right; auto) Hi).
      assert (consistent P st1 ((done ++ [c]) ++ map fst l ++ rest ++ hs)) as C1'.
      { eapply con_perm; [|exact C1]. rewrite <- app_assoc. cbn [app]. apply Permutation_middle. }
      specialize (IH C1'). assert (room P hs (n + Z.of_nat (length (done ++ [c]) + (w + 1) * length l))) as Hr2.
      { eapply room_le; [|exact Hr]. rewrite app_length. cbn [length]. nia. }
      specialize (IH Hr2). destruct (u_update f later (done ++ [c]) l st1) as [v e]. destruct IH as [Lv IH].
      rewrite app_length in Lv. cbn [length] in Lv. split; [cbn [length]; lia|].
      destruct e as [[] st'|st'| |]; auto.
      * destruct IH as [C2 K2]. split; auto. eapply keeps_trans; [|exact K2]. eapply keeps_incl; [exact K1|intros z Hz; rewrite !in_app_iff; auto].
      * destruct IH as [C2 (k & Hk & Ek & K2)]. split; auto. exists (S k). cbn [length map skipn]. split; [lia|]. split.
        -- rewrite <- Ek. f_equal. rewrite app_length. cbn [length]. lia.
        -- eapply keeps_trans; [|exact K2]. eapply keeps_incl; [exact K1|]. intros z Hz. rewrite !in_app_iff. apply in_app_iff in Hz.
           destruct Hz as [Hz|Hz]; auto. right. left. rewrite <- (firstn_skipn k (map fst l)). apply in_app_iff. auto.
    + destruct G as [C1 K1].
      destruct (own_all_unwinds P (f x y) st st1 rest E (x :: done ++ map fst l ++ hs)) as (st2 & E2 & C2 & K2).
      { eapply con_perm; [|exact C1]. symmetry. etransitivity; [symmetry; apply Permutation_middle|]. apply perm_skip.
        etransitivity; [apply Permutation_app_swap_app|]. apply Permutation_app_head. apply Permutation_app_swap_app. }
      rewrite E2. split; [rewrite app_length; cbn [length]; rewrite map_length; lia|]. split.
      { eapply con_perm; [|exact C2]. rewrite <- app_assoc. cbn [app]. apply Permutation_middle. }
      exists 0%nat. cbn [length map skipn fst]. split; [lia|]. split.
      { rewrite Nat.add_0_r, skipn_app, skipn_all, Nat.sub_diag. reflexivity. }
      eapply keeps_trans; [eapply keeps_incl; [exact K1|]|eapply keeps_incl; [exact K2|]].
      * cbn [app]. intros z [<-|Hz]; [left; auto|]. right. rewrite !in_app_iff. apply in_app_iff in Hz. tauto.
      * cbn [app]. intros z [<-|Hz]; [left; auto|]. right. rewrite !in_app_iff. apply in_app_iff in Hz. tauto.
Qed.

Lemma combine_fst (a b : list Z) : length a = length b -> map fst (combine a b) = a.
Proof. revert b. induction a as [|x a IH]; intros [|y b]; cbn; try discriminate; auto. intros Q. f_equal. apply IH. congruence. Qed.
Lemma combine_snd (a b : list Z) : length a = length b -> map snd (combine a b) = b.
Proof. revert b. induction a as [|x a IH]; intros [|y b]; cbn; try discriminate; auto. intros Q. f_equal. apply IH. congruence. Qed.
Lemma concat_nil {A} (l : list A) : concat (map (fun _ => @nil Z) l) = [].
Proof. induction l; cbn; auto. Qed.

Theorem C159_assign_partial : forall dbg o P st hs a b, arithmetic o = true -> length a = length b -> room P hs (4 + 3 * Z.of_nat (length a)) ->
  (consistent P st (a ++ b ++ hs) -> assigned P st hs a (uv_assign dbg o a b st)) /\
  (consistent P st (a ++ hs) -> incl b hs -> assigned P st hs a (uv_assign_ref dbg o a b st)).
Proof.
  intros dbg o P st hs a b Ho Hl Hr.
  assert (length (combine a b) = length a) as Lc by (rewrite combine_length, <- Hl, Nat.min_id; auto).
  split.
  - intros Hc. unfold uv_assign.
    pose proof (update_ends P 3 [] (u_assign_val (u_operate dbg o)) (fun l => l) (fun y => [y]) 1
      ltac:(intros; symmetry; apply concat_single) ltac:(intros; cbn; lia) (combine a b) [] st hs) as G.
    specialize (G ltac:(intros; apply replaces_val; auto; lia) ltac:(intros z [])).
    rewrite combine_fst, combine_snd, concat_single, Lc in G by auto. cbn [app length] in G.
    specialize (G Hc ltac:(eapply room_le; [|exact Hr]; lia)). unfold assigned.
    destruct (u_update _ _ [] (combine a b) st) as [v e]. exact G.
  - intros Hc Hb. unfold uv_assign_ref.
    pose proof (update_ends P 2 b (u_assign_ref (u_operate dbg o)) (fun _ => []) (fun y => []) 0
      ltac:(intros; symmetry; apply concat_nil) ltac:(intros; cbn; lia) (combine a b) [] st hs) as G.
    specialize (G ltac:(intros x y Hxy; apply replaces_ref; auto; [lia|eapply in_combine_r; eauto]) Hb).
    rewrite combine_fst, concat_nil, Lc in G by auto. cbn [app length] in G.
    specialize (G Hc ltac:(eapply room_le; [|exact Hr]; lia)). unfold assigned.
    destruct (u_update _ _ [] (combine a b) st) as [v e]. exact G.
Qed.
Print Assumptions C159_assign_partial.

Lemma map_pair_fst (s : Z) (a : list Z) : map fst (map (fun x => (x, s)) a) = a.
Proof. rewrite map_map. cbn. apply map_id. Qed.

Theorem C159_assign_scalar_partial : forall dbg o P st hs a s, arithmetic o = true -> room P hs (5 + Z.of_nat (length a)) ->
  (consistent P st (s :: a ++ hs) -> assigned P st hs a (uv_assign_scalar dbg o a s st)) /\
  (consistent P st (a ++ hs) -> In s hs -> assigned P st hs a (uv_assign_scalar_ref dbg o a s st)).
Proof.
  intros dbg o P st hs a s Ho Hr. split.
  - intros Hc. unfold uv_assign_scalar.
    set (f := fun x s0 => let? y := leaf (bi_clone dbg s0) in u_assign_val (u_operate dbg o) x y).
    pose proof (update_ends P 4 [s] f (fun _ => []) (fun y => []) 0
      ltac:(intros; symmetry; apply concat_nil) ltac:(intros; cbn; lia) (map (fun x => (x, s)) a) [] st (s :: hs)) as G.
    specialize (G ltac:(intros x y Hxy; apply in_map_iff in Hxy; destruct Hxy as (x' & Q & _); assert (s = y) as <- by congruence;
      apply replaces_scalar; auto; [lia|left; auto]) ltac:(intros z [<-|[]]; left; auto)).
    rewrite map_pair_fst, concat_nil, map_length in G. cbn [app length] in G.
    assert (consistent P st (a ++ s :: hs)) as Hc' by (eapply con_perm; [|exact Hc]; apply Permutation_middle).
    specialize (G Hc' ltac:(apply room_cons; eapply room_le; [|exact Hr]; lia)).
    unfold assigned, ubind, owning. destruct (u_update f (fun _ => []) [] (map (fun x => (x, s)) a) st) as [v e]. cbn [fst snd].
    destruct G as [Lv G]. split; [exact Lv|]. destruct e as [[] st'|st'| |]; auto.
    + destruct G as [C1 K1]. assert (consistent P st' (s :: v ++ hs)) as C1' by (eapply con_perm; [|exact C1]; symmetry; apply Permutation_middle).
      destruct (drop_spec P st' _ s C1') as (st2 & E2 & C2 & K2). unfold u_drop, leaf. rewrite E2. split; auto.
      eapply keeps_trans; [eapply keeps_incl; [exact K1|intros z Hz; right; auto]|]. eapply keeps_incl; [exact K2|intros z Hz; apply in_app_iff; auto].
    + destruct G as [C1 (k & Hk & Ek & K1)].
      assert (consistent P st' (s :: v ++ hs)) as C1' by (eapply con_perm; [|exact C1]; symmetry; apply Permutation_middle).
      destruct (drop_spec P st' _ s C1') as (st2 & E2 & C2 & K2). rewrite E2. split; auto. exists k. split; auto. split; auto.
      eapply keeps_trans; [eapply keeps_incl; [exact K1|]|eapply keeps_incl; [exact K2|]].
      * intros z Hz. apply in_app_iff in Hz. apply in_app_iff. destruct Hz; [left|right; right]; auto.
      * intros z Hz. apply in_app_iff in Hz. apply in_app_iff. destruct Hz as [Hz|Hz]; auto. left. rewrite <- Ek in Hz.
        rewrite <- (firstn_skipn k v). apply in_app_iff. auto.
  - intros Hc Hs. unfold uv_assign_scalar_ref.
    pose proof (update_ends P 2 [s] (u_assign_ref (u_operate dbg o)) (fun _ => []) (fun y => []) 0
      ltac:(intros; symmetry; apply concat_nil) ltac:(intros; cbn; lia) (map (fun x => (x, s)) a) [] st hs) as G.
    specialize (G ltac:(intros x y Hxy; apply in_map_iff in Hxy; destruct Hxy as (x' & Q & _); assert (s = y) as <- by congruence;
      apply replaces_ref; auto; [lia|left; auto]) ltac:(intros z [<-|[]]; auto)).
    rewrite map_pair_fst, concat_nil, map_length in G. cbn [app length] in G.
    specialize (G Hc ltac:(eapply room_le; [|exact Hr]; lia)). unfold assigned.
    destruct (u_update _ _ [] _ st) as [v e]. exact G.
Qed.
Print Assumptions C159_assign_scalar_partial.

(** [Vector::new([9, X]) / Vector::new([-7 * X, -7])] with X = 2^100 + 3: the first division panics, all BigInts are gone, and the slot of X
    is never free again. *)
Lemma demo_perm : Permutation demo_hs [38; 0; 5; 31].
Proof. rewrite demo_handles. change [38; 0; 5; 31] with ([38; 0] ++ [5; 31]). perm. Qed.
Lemma demo_room n : n <= 100 -> room 100 [] n.
Proof. unfold room. cbn. lia. Qed.
Lemma demo_con l : Permutation [38; 0; 5; 31] l -> consistent 100 demo_st l.
Proof.
  intros Q. eapply con_perm; [exact (Permutation_trans demo_perm Q)|]. destruct demo_consistent as [H1 H2 H3 H4 H5]. constructor; auto; lia.
Qed.
Theorem C159_refuted : exists P st a b,
  consistent P st (a ++ b ++ []) /\ length a = 2%nat /\ length b = 2%nat /\ room P [] 50 /\
  forall dbg, exists st', uv_op dbg ODiv a b st = Unwound st' /\ refcount st' 0 = Ok 1 /\ ~ consistent P st' [].
Proof.
  exists 100, demo_st, [38; 0], [5; 31]. split; [apply demo_con; reflexivity|]. split; [reflexivity|]. split; [reflexivity|].
  split; [apply demo_room; lia|].
  assert (exists st', (forall dbg, uv_op dbg ODiv [38; 0] [5; 31] demo_st = Unwound st') /\ refcount st' 0 = Ok 1 /\ length st' = 1%nat) as (st' & E & R & L).
  { eexists. split; [intros []; vm_compute; reflexivity|]. split; vm_compute; reflexivity. }
  intros dbg. exists st'. split; [apply E|]. split; [exact R|]. intros C. pose proof (con_refs _ _ _ C 0 ltac:(lia)) as Q. rewrite R in Q. discriminate Q.
Qed.
Print Assumptions C159_refuted.

(** The other operators meet their hypotheses and panic as well: [[9, X] / &(-7 X)], [[9, X] /= [-7 X, -7]], [[X, 9] /= &[-7, -7 X]] (whose first
    element has become the BigInt with handle 9), a product of a matrix without columns, and a quotient of complex numbers. *)
Example C159_demo :
  consistent 100 demo_st ([38; 0] ++ [5; 31]) /\ consistent 100 demo_st ([0; 38] ++ [31; 5]) /\ In 5 [5; 31] /\ room 100 [5; 31] 4 /\ room 100 [] 14 /\
  (forall dbg, exists st', uv_scalar_ref dbg ODiv [38; 0] 5 demo_st = Unwound st') /\
  (forall dbg, exists st', uv_assign dbg ODiv [38; 0] [5; 31] demo_st = ([38; 0], Unwound st')) /\
  (forall dbg, exists st', uv_assign_ref dbg ODiv [0; 38] [31; 5] demo_st = ([9; 38], Unwound st')) /\
  (forall dbg, um_mul dbg 1 0 1 [[]] [] demo_st = Unwound demo_st) /\
  (forall dbg, exists st', uc_div dbg (Cx 38 0) (Cx 5 31) demo_st = Unwound st').
Proof.
  split; [apply demo_con; reflexivity|]. split; [apply demo_con; cbn [app]; perm|].
  split; [left; auto|]. split; [vm_compute; discriminate|]. split; [apply demo_room; lia|].
  split; [intros []; eexists; vm_compute; reflexivity|]. split; [intros []; eexists; vm_compute; reflexivity|].
  split; [intros []; eexists; vm_compute; reflexivity|]. split; [intros []; vm_compute; reflexivity|].
  intros []; eexists; vm_compute; reflexivity.
Qed.
