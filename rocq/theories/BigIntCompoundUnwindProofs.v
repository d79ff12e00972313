(** Proofs about BigIntCompoundUnwindModel.v. *)
From Coq Require Import ZArith List Bool Lia Permutation.
From Verif Require Import Base Words Spec BitSliceModel ElementModel BitwiseModel InternModel InternProofs BigIntModel BigIntSpec BigIntProofs
  BigIntOps BigIntSafe BigIntRun BigIntUnwindModel BigIntUnwindProofs VectorModel BigIntCompoundModel BigIntCompoundUnwindModel.
Import ListNotations.
Local Open Scope Z_scope.

(** ** Nothing runs out of fuel *)

Definition nt {A} (r : res A) : Prop := r <> Timeout.
Lemma nt_ok {A} (a : A) : nt (Ok a). Proof. discriminate. Qed.
Lemma nt_panic {A} : nt (@Panic A). Proof. discriminate. Qed.
Lemma nt_bind {A B} (m : res A) (f : A -> res B) : nt m -> (forall a, nt (f a)) -> nt (bind m f).
Proof. intros H1 H2. destruct m as [a| |]; cbn [bind]; [apply H2|exact nt_panic|elim H1; reflexivity]. Qed.
Lemma nt_unwrap {A} (o : option A) : nt (unwrap o).
Proof. destruct o; discriminate. Qed.
Lemma nt_foldR {S I} (f : S -> I -> res S) l : (forall s i, nt (f s i)) -> forall s, nt (foldR f l s).
Proof. intros H. induction l as [|i l IH]; intros s; cbn [foldR]; [discriminate|]. apply nt_bind; auto. Qed.
Ltac nt_go := repeat first
  [ progress cbv beta zeta | apply nt_ok | apply nt_panic | apply nt_unwrap | apply nt_bind; [|intros] | apply nt_foldR; intros [] ?
  | match goal with |- nt (if ?c then _ else _) => destruct c | |- nt (match ?c with _ => _ end) => destruct c end ].

Lemma nt_shrink l : nt (shrink l).
Proof. unfold shrink. nt_go. Qed.
Lemma nt_div_long dbg w a b : nt (bit_div_long dbg w a b).
Proof.
  unfold bit_div_long, div_shift_in, elem_shl_wrapping, masked_amount, inner_shl, fill_prefix, get_bit, set_bit. nt_go.
Qed.
Definition mcalm {A} (m : M A) : Prop := forall st, nt (m st).
Lemma mcalm_bind {A B} (m : M A) (f : A -> M B) : mcalm m -> (forall a, mcalm (f a)) -> mcalm (mbind m f).
Proof. intros H1 H2 st. unfold mbind. apply nt_bind; [apply H1|]. intros [a st']. apply H2. Qed.
Lemma mcalm_lift {A} (r : res A) : nt r -> mcalm (lift r).
Proof. intros H st. unfold lift. apply nt_bind; auto. intros. apply nt_ok. Qed.
Lemma mcalm_ret {A} (a : A) : mcalm (ret a). Proof. intros st. discriminate. Qed.
Lemma mcalm_slice a : mcalm (reads (fun st => bi_slice st a)).
Proof. intros st. unfold reads, bi_slice, intern_get, try_get, slot_at. nt_go. Qed.
Lemma mcalm_new_slice dbg l neg : mcalm (new_slice dbg l neg).
Proof.
  unfold new_slice. apply mcalm_bind; [apply mcalm_lift, nt_shrink|]. intros l'. destruct (_ && _).
  - apply mcalm_lift. unfold new_inline, to_new. nt_go.
  - unfold new_intern. apply mcalm_bind; [|intros; apply mcalm_lift; unfold to_new; nt_go].
    intros st. unfold intern_add, incr_inner, set_val, slot_at. nt_go.
Qed.
Lemma mcalm_clone dbg a : mcalm (bi_clone dbg a).
Proof. unfold bi_clone. destruct (is_inline a); [apply mcalm_ret|]. intros st. unfold intern_incr, incr_inner, slot_at. nt_go. Qed.
Lemma mcalm_drop a : mcalm (bi_drop a).
Proof. unfold bi_drop. destruct (is_inline a); [apply mcalm_ret|]. intros st. unfold intern_decr, decr_inner, slot_at. nt_go. Qed.
Lemma mcalm_with_slices {A} a b (f : list Z -> list Z -> M A) : (forall la lb, mcalm (f la lb)) -> mcalm (with_slices a b f).
Proof. intros H. unfold with_slices. repeat (apply mcalm_bind; [apply mcalm_slice|intros]). apply H. Qed.
Lemma mcalm_entry m i j : mcalm (entry m i j).
Proof. unfold entry, item. apply mcalm_bind; [|intros l]; (destruct (nth_error _ _); [apply mcalm_ret|apply mcalm_lift, nt_panic]). Qed.

(** The operators that vectors and matrices have. *)
Definition arithmetic (o : operator) : bool := match o with OAdd | OSub | OMul | ODiv | ORem => true | _ => false end.

Lemma mcalm_operate dbg o a b : arithmetic o = true -> mcalm (operate dbg o a b).
Proof.
  assert (forall la lb, mcalm (lift (elem_sub 64 la lb))) as HS.
  { intros la lb. apply mcalm_lift. unfold elem_sub, get_bit, set_bit. destruct (elem_sub_loop _ _ _ _ _) as [out carry].
    nt_go; try apply nt_shrink. }
  assert (forall la lb, mcalm (lift (elem_add 64 la lb))) as HA by (intros; apply mcalm_lift, nt_shrink).
  intros H. destruct o; try discriminate H; cbn [operate]; unfold bi_add, bi_sub, bi_mul, bi_div, bi_rem.
  - apply mcalm_bind; [apply mcalm_with_slices; intros|intros []; apply mcalm_new_slice].
    destruct (is_positive a), (is_positive b); auto; (apply mcalm_bind; [auto|]); intros; try destruct a0; apply mcalm_ret.
  - apply mcalm_bind; [apply mcalm_with_slices; intros|intros []; apply mcalm_new_slice].
    destruct (is_positive a), (is_positive b); auto; (apply mcalm_bind; [auto|]); intros; try destruct a0; apply mcalm_ret.
  - apply mcalm_bind; [apply mcalm_with_slices; intros|intros; apply mcalm_new_slice]. apply mcalm_lift, nt_shrink.
  - apply mcalm_bind; [apply mcalm_with_slices; intros|intros; apply mcalm_new_slice].
    apply mcalm_bind; [apply mcalm_lift, nt_div_long|]. intros []. apply mcalm_ret.
  - apply mcalm_bind; [apply mcalm_with_slices; intros|intros; apply mcalm_new_slice].
    apply mcalm_bind; [apply mcalm_lift, nt_div_long|]. intros []. apply mcalm_ret.
Qed.

Definition calm {A} (u : U A) : Prop := forall st, u st <> Starved.
Lemma calm_leaf {A} (m : M A) : mcalm m -> calm (leaf m).
Proof. intros H st. unfold leaf. specialize (H st). destruct (m st) as [[]| |]; try discriminate. contradiction. Qed.
Lemma calm_ret {A} (a : A) : calm (uret a). Proof. intros st. discriminate. Qed.
Lemma calm_bind {A B} (m : U A) (f : A -> U B) : calm m -> (forall a, calm (f a)) -> calm (ubind m f).
Proof. intros H1 H2 st. unfold ubind. specialize (H1 st). destruct (m st); auto; try discriminate. apply H2. Qed.
Lemma calm_own {A} h (m : U A) : calm m -> calm (owning h m).
Proof. intros H st. unfold owning. specialize (H st). destruct (m st); auto; try discriminate. destruct (bi_drop _ _) as [[]| |]; discriminate. Qed.
Lemma calm_own_all {A} hs (m : U A) : calm m -> calm (owning_all hs m).
Proof. intros H. induction hs as [|h hs IH]; cbn [owning_all fold_right]; auto. apply calm_own. exact IH. Qed.
Lemma calm_drop h : calm (u_drop h). Proof. apply calm_leaf, mcalm_drop. Qed.
Lemma calm_drop_all l : calm (u_drop_all l).
Proof. induction l; cbn [u_drop_all]; [apply calm_ret|]. apply calm_bind; [apply calm_drop|auto]. Qed.
Lemma calm_operate dbg o a b : arithmetic o = true -> calm (u_operate dbg o a b).
Proof. intros H. destruct o; try discriminate H; cbn [u_operate]; apply calm_leaf, (mcalm_operate dbg _ a b H). Qed.
Ltac calm_go := repeat first
  [ apply calm_ret | apply calm_bind; [|intros] | apply calm_own | apply calm_own_all | apply calm_drop | apply calm_drop_all
  | apply calm_operate; [assumption || reflexivity] | apply calm_leaf, mcalm_clone | apply calm_leaf, mcalm_entry ].
Lemma calm_by_val dbg o a b : arithmetic o = true -> calm (u_by_val (u_operate dbg o) a b).
Proof. intros H. unfold u_by_val. calm_go. Qed.
Lemma calm_by_val_ref dbg o a b : arithmetic o = true -> calm (u_by_val_ref (u_operate dbg o) a b).
Proof. intros H. unfold u_by_val_ref. calm_go. Qed.
Lemma calm_collect {A B} parts (f : A -> U B) l : (forall x, calm (f x)) -> forall done, calm (u_collect parts f done l).
Proof. intros H. induction l as [|x l IH]; intros done; cbn [u_collect]; calm_go; auto. Qed.
Lemma calm_map f l : (forall x, calm (f x)) -> forall done, calm (u_map f done l).
Proof. intros H. induction l as [|x l IH]; intros done; cbn [u_map]; calm_go; auto. Qed.
Lemma calm_update {A} (f : Z -> A -> U Z) later l : (forall x y, calm (f x y)) -> forall done st, snd (u_update f later done l st) <> Starved.
Proof.
  intros H. induction l as [|[x y] l IH]; intros done st; cbn [u_update]; [discriminate|].
  pose proof (calm_own_all (later (map snd l)) (f x y) (H x y) st) as C. destruct (owning_all _ _ st); try discriminate; auto.
Qed.
Lemma calm_times dbg hs l r : calm (u_times dbg hs l r).
Proof. unfold u_times. calm_go. Qed.

(** ** Agreement with BigIntCompoundModel.v *)

Lemma agrees_own_all {A} hs (u : U A) m : agrees u m -> agrees (owning_all hs u) m.
Proof. intros H. induction hs as [|h hs IH]; cbn [owning_all fold_right]; auto. apply agrees_own. exact IH. Qed.
Lemma agrees_ext {A} (u : U A) m m' : (forall st, m st = m' st) -> agrees u m -> agrees u m'.
Proof. intros E H st. specialize (H st). rewrite <- E. exact H. Qed.
Lemma mbind_assoc {A B C} (m : M A) (f : A -> M B) (g : B -> M C) st : mbind (mbind m f) g st = mbind m (fun x => mbind (f x) g) st.
Proof. unfold mbind. destruct (m st) as [[a st']| |]; reflexivity. Qed.
Lemma mbind_ret {A} (m : M A) st : mbind m ret st = m st.
Proof. unfold mbind, ret. destruct (m st) as [[a st']| |]; reflexivity. Qed.
Lemma mbind_cong {A B} (m : M A) (f g : A -> M B) st : (forall a st', f a st' = g a st') -> mbind m f st = mbind m g st.
Proof. intros H. unfold mbind. destruct (m st) as [[a st']| |]; cbn [bind]; auto. Qed.

Lemma agrees_each {A B} (step : list B -> A -> list A -> U B) (f : A -> M B) (go : list B -> list A -> U (list B)) :
  (forall done, go done [] = uret done) ->
  (forall done x r, go done (x :: r) = let? y := step done x r in go (done ++ [y]) r) ->
  (forall done x r, agrees (step done x r) (f x)) ->
  forall l done, agrees (go done l) (let! ys := each f l in ret (done ++ ys)).
Proof.
  intros E1 E2 H. induction l as [|x l IH]; intros done; cbn [each].
  - rewrite E1. intros st. cbn. rewrite app_nil_r. reflexivity.
  - rewrite E2. apply (agrees_ext _ (let! y := f x in let! ys := each f l in ret ((done ++ [y]) ++ ys))).
    + intros st. rewrite mbind_assoc. apply mbind_cong. intros y st'. rewrite mbind_assoc. apply mbind_cong. intros ys st2.
      cbn. rewrite <- app_assoc. reflexivity.
    + apply agrees_bind; auto.
Qed.
Lemma agrees_nil {A} (u : U (list A)) m : agrees u (let! ys := m in ret ([] ++ ys)) -> agrees u m.
Proof. apply agrees_ext. intros st. apply (mbind_ret m st). Qed.
Lemma agrees_collect {A B} parts (f : A -> U B) g l : (forall x, agrees (f x) (g x)) -> agrees (u_collect parts f [] l) (each g l).
Proof.
  intros H. apply agrees_nil.
  apply (agrees_each (fun done x _ => owning_all (concat (map parts done)) (f x)) g (u_collect parts f)); auto. intros. apply agrees_own_all. auto.
Qed.
Lemma agrees_map f g l : (forall x, agrees (f x) (g x)) -> agrees (u_map f [] l) (each g l).
Proof.
  intros H. apply agrees_nil.
  apply (agrees_each (fun done x r => owning_all (done ++ r) (f x)) g (u_map f)); auto. intros. apply agrees_own_all. auto.
Qed.
Lemma agrees_drop_all l : agrees (u_drop_all l) (drop_all l).
Proof. induction l; cbn [u_drop_all drop_all]; unfold u_drop; agree. Qed.
Lemma agrees_operate2 dbg o : agrees2 (u_operate dbg o) (operate dbg o).
Proof. intros a b. apply agrees_operate. Qed.
Lemma agrees_val dbg o a b : agrees (u_by_val (u_operate dbg o) a b) (by_val (operate dbg o) a b).
Proof. apply agrees_by_val, agrees_operate2. Qed.
Lemma agrees_val_ref dbg o a b : agrees (u_by_val_ref (u_operate dbg o) a b) (by_val_ref (operate dbg o) a b).
Proof. apply agrees_by_val_ref, agrees_operate2. Qed.

(** What [u_update] returns, as one computation. *)
Definition as_u (r : istore -> list Z * ending unit) : U (list Z) := fun st =>
  match r st with
  | (v, Returned _ st') => Returned v st'
  | (_, Unwound st') => Unwound st'
  | (_, Aborted) => Aborted
  | (_, Starved) => Starved
  end.
Lemma agrees_update {A} (f : Z -> A -> U Z) later (g : Z * A -> M Z) : (forall x y, agrees (f x y) (g (x, y))) ->
  forall l, agrees (as_u (u_update f later [] l)) (each g l).
Proof.
  intros H l. apply agrees_nil.
  enough (forall l done, agrees (as_u (u_update f later done l)) (let! ys := each g l in ret (done ++ ys))) as G by auto.
  clear l. induction l as [|[x y] l IH]; intros done; cbn [each].
  - intros st. cbn. rewrite app_nil_r. reflexivity.
  - apply (agrees_ext _ (let! y := g (x, y) in let! ys := each g l in ret ((done ++ [y]) ++ ys))).
    + intros st. rewrite mbind_assoc. apply mbind_cong. intros c st'. rewrite mbind_assoc. apply mbind_cong. intros ys st2.
      cbn. rewrite <- app_assoc. reflexivity.
    + intros st. pose proof (agrees_own_all (later (map snd l)) _ _ (H x y) st) as C. unfold as_u. cbn [u_update].
      set (F := fun c => let! ys := each g l in ret ((done ++ [c]) ++ ys)).
      assert (mbind (g (x, y)) F st = bind (g (x, y) st) (fun p => F (fst p) (snd p))) as MB by (unfold mbind; destruct (g (x, y) st) as [[]| |]; reflexivity).
      rewrite !MB.
      destruct (owning_all _ _ st) as [c st'|st'| |]; rewrite C; cbn [bind]; auto. apply (IH (done ++ [c]) st').
Qed.
Lemma agrees_assign_val dbg o x y : agrees (u_assign_val (u_operate dbg o) x y) (assign_val (operate dbg o) x y).
Proof. unfold u_assign_val, assign_val, u_drop. agree. apply agrees_operate. Qed.
Lemma agrees_assign_ref dbg o x y : agrees (u_assign_ref (u_operate dbg o) x y) (by_val_ref (operate dbg o) x y).
Proof. unfold u_assign_ref, by_val_ref, u_drop. agree. apply agrees_operate. Qed.

(** ** What is left *)

Lemma usafe_own_all {A} P n refs hs ins (u : U A) o Q : usafe P (n - Z.of_nat (length hs)) (hs ++ refs) ins u o Q ->
  usafe P n refs (hs ++ ins) (owning_all hs u) (fun r => hs ++ o r) Q.
Proof.
  revert n refs. induction hs as [|h hs IH]; intros n refs H; cbn [owning_all fold_right app].
  - eapply usafe_weaken; [exact H|cbn; lia|apply incl_refl|reflexivity|]. intros a q. split; auto.
  - apply (usafe_own P (n - 1) n (h :: refs) refs h (hs ++ ins) _ (fun r => hs ++ o r) Q); [|lia|apply incl_refl].
    apply IH. eapply usafe_weaken; [exact H|cbn [length]; lia| |reflexivity|].
    + intros x [->|Hx]; apply in_app_iff; [right; left; auto|]. apply in_app_iff in Hx. destruct Hx; [left|right; right]; auto.
    + intros a q. split; auto.
Qed.

Lemma usafe_map P n refs f : (forall x refs', incl refs refs' -> usafe P n refs' [x] (f x) one any) -> forall l done m,
  n + Z.of_nat (length done) + Z.of_nat (length l) <= m -> usafe P m refs (done ++ l) (u_map f done l) (fun c => c) any.
Proof.
  intros H. induction l as [|x l IH]; intros done m Hm; cbn [u_map].
  - rewrite app_nil_r. apply (usafe_ret P m refs done (fun c => c)). exact I.
  - eapply usafe_bind with (Q1 := any).
    + eapply usafe_in; [apply (usafe_own_all P m refs (done ++ l) [x] (f x) one any)|].
      * eapply usafe_weaken; [apply (H x ((done ++ l) ++ refs))|rewrite app_length; cbn [length] in Hm; lia|apply incl_refl|reflexivity|auto].
        intros z Hz. apply in_app_iff. auto.
      * rewrite <- app_assoc. apply Permutation_app_head. apply Permutation_sym, Permutation_cons_append.
    + intros y _. cbn beta. eapply usafe_in; [apply IH|].
      * rewrite app_length. cbn [length] in *. lia.
      * unfold one. rewrite <- !app_assoc. apply Permutation_app_head. cbn [app]. apply Permutation_cons_append.
Qed.
Lemma usafe_scalar_fn P n refs dbg o s l : 3 <= n -> In s refs ->
  usafe P n refs [l] (let? r := owning l (leaf (bi_clone dbg s)) in u_by_val (u_operate dbg o) l r) one any.
Proof.
  intros Hn Hs. eapply usafe_bind; [apply own_new, usafe_leaf, safe_clone; [lia|right; auto]|]. intros r _. cbn beta.
  eapply usafe_weaken; [apply (usafe_by_val P 3); lia|lia|apply incl_refl|reflexivity|]. intros a _. split; [reflexivity|exact I].
Qed.
Lemma usafe_scalar P n dbg o a s : 4 + Z.of_nat (length a) <= n -> usafe P n [] (s :: a) (uv_scalar dbg o a s) (fun c => c) any.
Proof.
  intros Hn. unfold uv_scalar. eapply usafe_bind with (Q1 := any).
  - apply (usafe_own P (n - 1) n [s] [] s a _ (fun c => c) any); [|lia|apply incl_refl].
    apply (usafe_map P 3 [s]) with (done := []) (l := a); [|cbn [length]; lia]. intros x refs' Hi. apply usafe_scalar_fn; [lia|apply Hi; left; auto].
  - intros c _. cbn beta. apply usafe_drop. apply (usafe_ret P n [] c (fun c => c)). exact I.
Qed.
Lemma usafe_scalar_ref P n dbg o a s : 2 + Z.of_nat (length a) <= n -> usafe P n [s] a (uv_scalar_ref dbg o a s) (fun c => c) any.
Proof.
  intros Hn. apply (usafe_map P 2 [s]) with (done := []) (l := a); [|cbn [length]; lia]. intros x refs' Hi.
  eapply usafe_weaken; [apply (usafe_by_val_ref P 2 refs'); [lia|right; apply Hi; left; auto]|lia|apply incl_refl|reflexivity|].
  intros c _. split; [reflexivity|exact I].
Qed.

Lemma usafe_drop_all {A} P n refs l rest (f : unit -> U A) o Q : usafe P n refs rest (f tt) o Q ->
  usafe P n refs (l ++ rest) (ubind (u_drop_all l) f) o Q.
Proof.
  intros H. induction l as [|x l IH]; cbn [u_drop_all app].
  - exact H.
  - intros st hs Hc Hr Hi. pose proof (usafe_drop P n refs x (l ++ rest) (fun _ => ubind (u_drop_all l) f) o Q IH st hs Hc Hr Hi) as G.
    unfold ubind in *. destruct (u_drop x st); exact G.
Qed.

(** [from_fn] over indices: nothing is consumed. *)
Lemma usafe_from_fn {A B} P n k refs (parts : B -> list Z) (f : A -> U B) : 0 <= k ->
  (forall x refs', incl refs refs' -> usafe P n refs' [] (f x) parts (fun y => Z.of_nat (length (parts y)) <= k)) ->
  forall l done m, Forall (fun y => Z.of_nat (length (parts y)) <= k) done -> n + k * (Z.of_nat (length done) + Z.of_nat (length l)) <= m ->
  usafe P m refs (concat (map parts done)) (u_collect parts f done l) (fun c => concat (map parts c))
    (fun c => length c = (length done + length l)%nat).
Proof.
  intros Hk H. induction l as [|x l IH]; intros done m F Hm; cbn [u_collect].
  - apply (usafe_ret P m refs done (fun c => concat (map parts c))). cbn [length]. lia.
  - assert (Z.of_nat (length (concat (map parts done))) <= k * Z.of_nat (length done)) as L.
    { clear - F. induction done as [|y done IH]; cbn [map concat length]; [lia|]. inversion F; subst. rewrite app_length.
      specialize (IH H2). lia. }
    eapply usafe_bind.
    + eapply usafe_in; [apply (usafe_own_all P m refs (concat (map parts done)) [] (f x) parts)|rewrite app_nil_r; reflexivity].
      eapply usafe_weaken; [apply (H x (concat (map parts done) ++ refs))|cbn [length] in Hm; nia|apply incl_refl|reflexivity|].
      * intros z Hz. apply in_app_iff. auto.
      * intros y q. split; [reflexivity|exact q].
    + intros y q. cbn beta. eapply usafe_weaken; [apply (IH (done ++ [y]) m)|lia|apply incl_refl| |].
      * apply Forall_app. split; auto.
      * rewrite app_length. cbn [length] in *. lia.
      * rewrite map_app, concat_app. cbn. rewrite app_nil_r. reflexivity.
      * intros c E. split; [reflexivity|]. rewrite app_length in E. cbn [length] in *. lia.
Qed.

Definition within (m : list (list Z)) (refs : list Z) : Prop := incl (concat m) refs.
Lemma usafe_entry P n refs m i j : within m refs -> usafe P n refs [] (leaf (entry m i j)) none (fun x => In x refs).
Proof.
  intros Hw. apply usafe_leaf. intros st hs Hc Hr Hi r st' E. unfold entry, item, mbind in E.
  destruct (nth_error m i) as [row|] eqn:Er; [|discriminate E]. cbn in E.
  destruct (nth_error row j) as [x|] eqn:Ex; [|discriminate E]. cbn in E.
  assert (Ok (x, st) = Ok (r, st')) as E2 by exact E. assert (x = r /\ st = st') as [-> ->] by (split; congruence).
  split; [exact Hc|]. split; [apply keeps_refl|]. apply Hw. apply in_concat. exists row. split; eapply nth_error_In; eauto.
Qed.
Lemma usafe_term P n refs dbg a b i j k : 3 <= n -> within a refs -> within b refs -> usafe P n refs [] (um_term dbg a b i j k) one nonnz.
Proof.
  intros Hn Ha Hb. unfold um_term.
  eapply usafe_bind; [apply usafe_entry; auto|]. intros x Hx. unfold none.
  eapply usafe_bind; [apply usafe_leaf, safe_clone; [lia|auto]|]. intros x' _. unfold one.
  eapply usafe_bind; [apply own_none, (usafe_entry P (n - 1) (x' :: refs)); intros z Hz; right; auto|]. intros y Hy. cbn beta.
  eapply usafe_bind; [apply own_new, usafe_leaf, safe_clone; [lia|auto]|]. intros y' _. cbn beta.
  apply usafe_by_val. lia.
Qed.
Lemma usafe_sum P n refs dbg a b i j : 4 <= n -> within a refs -> within b refs -> forall ks out,
  usafe P n refs [out] (um_sum dbg a b i j ks out) one any.
Proof.
  intros Hn Ha Hb. induction ks as [|k ks IH]; intros out; cbn [um_sum].
  - apply (usafe_ret P n refs out one). exact I.
  - eapply usafe_bind; [apply own_new, usafe_term; [lia| |]; intros z Hz; right; auto|]. intros p _. cbn beta.
    eapply usafe_bind; [apply usafe_by_val; lia|]. intros out' _. apply IH.
Qed.
Lemma usafe_mul P n dbg row col col2 a b :
  4 + Z.of_nat (length (concat a)) + Z.of_nat (length (concat b)) + Z.of_nat (col2 + row * col2) <= n ->
  usafe P n [] (concat a ++ concat b) (um_mul dbg row col col2 a b) (@concat Z) any.
Proof.
  intros Hn. unfold um_mul.
  eapply usafe_bind with (Q1 := any).
  - eapply usafe_in; [apply (usafe_own_all P n [] (concat a ++ concat b) [] _ (fun c => concat (map (fun r => r) c)))|rewrite app_nil_r; reflexivity].
    eapply usafe_weaken; [apply (usafe_from_fn P (4 + Z.of_nat col2) (Z.of_nat col2) ((concat a ++ concat b) ++ [])) with (done := []) (l := seq 0 row)| | | |].
    + lia.
    + intros i refs' Hi.
      assert (within a refs' /\ within b refs') as [Wa Wb].
      { split; intros z Hz; apply Hi; rewrite app_nil_r; apply in_app_iff; auto. }
      eapply usafe_weaken; [apply (usafe_from_fn P 4 1 refs' (fun h => [h])) with (done := []) (l := seq 0 col2)| | | |].
      * lia.
      * intros j refs2 Hi2. eapply usafe_weaken; [eapply usafe_bind with (Q2 := any); [apply usafe_term with (n := 4); [lia|apply (incl_tran Wa Hi2)|apply (incl_tran Wb Hi2)]|]|lia|apply incl_refl|reflexivity|].
        -- intros out _. apply usafe_sum; [lia|apply (incl_tran Wa Hi2)|apply (incl_tran Wb Hi2)].
        -- intros c _. split; [reflexivity|]. cbn [length]. lia.
      * constructor.
      * apply Z.le_refl.
      * cbn [length]. rewrite seq_length. lia.
      * apply incl_refl.
      * reflexivity.
      * intros c E. cbn [length] in E. rewrite seq_length in E.
        cbv beta. assert (concat (map (fun h => [h]) c) = c) as -> by (clear; induction c; cbn; congruence). split; [reflexivity|lia].
    + constructor.
    + apply Z.le_refl.
    + cbn [length]. rewrite seq_length, app_length. lia.
    + apply incl_refl.
    + reflexivity.
    + intros c _. split; [reflexivity|exact I].
  - intros c _. cbn beta. rewrite map_id. rewrite <- app_assoc.
    eapply usafe_in; [apply usafe_drop_all with (l := concat b) (rest := concat a ++ concat c)|].
    + apply usafe_drop_all. apply (usafe_ret P n [] c (@concat Z)). exact I.
    + rewrite !app_assoc. apply Permutation_app_tail. apply Permutation_app_comm.
Qed.

Lemma usafe_times P n refs dbg hs l r : Z.of_nat (length hs) + 4 <= n -> In l (hs ++ refs) -> In r (hs ++ refs) ->
  usafe P n refs hs (u_times dbg hs l r) (fun c => hs ++ [c]) any.
Proof.
  intros Hn Hl Hr. unfold u_times.
  eapply usafe_bind.
  { eapply usafe_in; [apply (usafe_own_all P n refs hs []), usafe_leaf, safe_clone; [lia|auto]|rewrite app_nil_r; reflexivity]. }
  intros p _. cbn beta.
  eapply usafe_bind.
  { eapply usafe_in; [apply (usafe_own_all P n refs (p :: hs) []), usafe_leaf, safe_clone; [cbn [length]; lia|right; auto]|].
    rewrite app_nil_r. unfold one. apply Permutation_cons_append. }
  intros q _. cbn beta.
  eapply usafe_weaken; [apply (usafe_own_all P n refs hs [p; q]), usafe_by_val; lia|lia|apply incl_refl| |intros c _; split; [reflexivity|exact I]].
  unfold one. cbn [app]. symmetry. apply (Permutation_middle hs [q] p).
Qed.

(** While [hs] are owned: an operator on two of the BigInts, or a clone of one of [hs]. *)
Lemma usafe_held P n refs dbg o hs a b : Z.of_nat (length hs) + 3 <= n ->
  usafe P n refs (hs ++ [a; b]) (owning_all hs (u_by_val (u_operate dbg o) a b)) (fun c => hs ++ [c]) any.
Proof.
  intros Hn. eapply usafe_weaken; [apply (usafe_own_all P n refs hs [a; b]), usafe_by_val; lia|lia|apply incl_refl|reflexivity|].
  intros c _. split; [reflexivity|exact I].
Qed.
Lemma usafe_held1 P n refs dbg o h a b : 4 <= n ->
  usafe P n refs [h; a; b] (owning h (u_by_val (u_operate dbg o) a b)) (fun c => [h; c]) any.
Proof. intros Hn. apply (usafe_held P n refs dbg o [h] a b). cbn [length]. lia. Qed.
Lemma usafe_held_clone P n refs dbg hs a : Z.of_nat (length hs) <= n -> In a hs ->
  usafe P n refs hs (owning_all hs (leaf (bi_clone dbg a))) (fun c => hs ++ [c]) any.
Proof.
  intros Hn Ha. eapply usafe_weaken; [apply (usafe_own_all P n refs hs []), usafe_leaf, safe_clone; [lia|apply in_app_iff; auto]|lia|apply incl_refl| |].
  - rewrite app_nil_r. reflexivity.
  - intros c _. split; [reflexivity|exact I].
Qed.

Ltac held := match goal with
  | |- usafe _ _ _ _ (ubind (u_times _ _ _ _) _) _ _ =>
    eapply usafe_bind; [eapply usafe_in; [apply usafe_times; [cbn [length]; lia|cbn; tauto|cbn; tauto]|perm]|intros ? _; cbn [app]]
  | |- usafe _ _ _ _ (ubind (owning_all _ (leaf (bi_clone _ _))) _) _ _ =>
    eapply usafe_bind; [eapply usafe_in; [apply usafe_held_clone; [cbn [length]; lia|cbn; tauto]|perm]|intros ? _; cbn [app]]
  | |- usafe _ _ _ _ (ubind (owning_all _ (u_by_val _ _ _)) _) _ _ =>
    eapply usafe_bind; [eapply usafe_in; [apply usafe_held; cbn [length]; lia|cbn [app]; perm]|intros ? _; cbn [app]]
  | |- usafe _ _ _ _ (ubind (owning _ (u_by_val _ _ _)) _) _ _ =>
    eapply usafe_bind; [eapply usafe_in; [apply usafe_held1; lia|perm]|intros ? _; cbn [app]]
  end.
Definition both (z : complex Z) : list Z := [real z; imag z].
Lemma usafe_c_op P n dbg o a b : 8 <= n -> usafe P n [] (both a ++ both b) (uc_op dbg o a b) both any.
Proof.
  intros Hn. destruct a as [x y], b as [u v]. unfold uc_op, both. cbn [real imag app]. repeat held.
  eapply usafe_in; [apply (usafe_ret P n [] (Cx a a0) both); exact I|unfold both; cbn [real imag]; perm].
Qed.
Lemma usafe_c_mul P n dbg a b : 12 <= n -> usafe P n [] (both a ++ both b) (uc_mul dbg a b) both any.
Proof.
  intros Hn. destruct a as [x y], b as [u v]. unfold uc_mul, both. cbn [real imag app]. repeat held.
  eapply usafe_in; [eapply (usafe_ret P n [] (Cx _ _) both); exact I|unfold both; cbn [real imag]; perm].
Qed.
Lemma usafe_c_div P n dbg a b : 14 <= n -> usafe P n [] (both a ++ both b) (uc_div dbg a b) both any.
Proof.
  intros Hn. destruct a as [x y], b as [u v]. unfold uc_div, both. cbn [real imag app]. repeat held.
  eapply usafe_in; [eapply (usafe_ret P n [] (Cx _ _) both); exact I|unfold both; cbn [real imag]; perm].
Qed.
Lemma usafe_c_div_scalar P n dbg a s : 14 <= n -> usafe P n [] (both a ++ [s]) (uc_div_scalar dbg a s) both any.
Proof.
  intros Hn. destruct a as [x y]. unfold uc_div_scalar, both. cbn [real imag app]. repeat held.
  eapply usafe_in; [apply usafe_drop|perm].
  eapply (usafe_ret P n [] (Cx _ _) both). exact I.
Qed.
