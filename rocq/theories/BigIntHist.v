(** Programs over BigInts keep the store consistent with the values in existence. *)
From Coq Require Import ZArith List Bool Lia Permutation.
From Verif Require Import Base Words Spec TextSpec Arith BitSliceModel InternModel InternProofs BigIntModel BigIntSpec
  BigIntProofs BigIntOps BigIntConv BigIntText BigIntSafe BigIntRun.
Import ListNotations.
Local Open Scope Z_scope.

Lemma operate_safe o : safe_op (fun dbg => operate dbg o).
Proof.
  destruct o; cbn [operate].
  - exact safe_add. - exact safe_sub. - exact safe_mul. - exact safe_div. - exact safe_rem.
  - exact safe_shl. - exact safe_shr.
  - apply (safe_bitop Z.land). intros; apply land_range; auto.
  - apply (safe_bitop Z.lor). intros; apply lor_range; auto.
  - apply (safe_bitop Z.lxor). intros; apply lxor_range; auto.
Qed.

Lemma literal_ok t v : literal t v = true -> std_ty t /\ in_range t v = true.
Proof.
  unfold literal, std_ty. intros H. apply andb_true_iff in H. destruct H as [H1 H2]. split; auto.
  apply existsb_exists in H1. destruct H1 as (x & Hx & E). apply Nat.eqb_eq in E. rewrite E. auto.
Qed.

Lemma handles_app e1 e2 : handles (e1 ++ e2) = handles e1 ++ handles e2.
Proof. unfold handles. rewrite flat_map_app. auto. Qed.

Lemma borrow_ok e i h : borrow e i = Ok h -> nth_error e i = Some (Some h).
Proof. unfold borrow. destruct (nth_error e i) as [[x|]|]; intros Q; try discriminate. congruence. Qed.

Lemma nth_handles e i h : nth_error e i = Some (Some h) -> In h (handles e).
Proof.
  intros H. unfold handles. apply in_flat_map. exists (Some h). split; [eapply nth_error_In; eauto|left; auto].
Qed.

Lemma upd_handles e i h : nth_error e i = Some (Some h) -> Permutation (handles e) (h :: handles (upd e i None)).
Proof.
  revert i. induction e as [|x e IH]; intros i H; [destruct i; discriminate|].
  destruct i as [|i]; cbn [nth_error upd] in *.
  - assert (x = Some h) as -> by congruence. reflexivity.
  - change (handles (x :: e)) with ((match x with Some h => [h] | None => [] end) ++ handles e).
    change (handles (x :: upd e i None)) with ((match x with Some h => [h] | None => [] end) ++ handles (upd e i None)).
    rewrite (IH i H). symmetry. apply Permutation_middle.
Qed.

Lemma take_ok e i h e' : take e i = Ok (h, e') -> nth_error e i = Some (Some h) /\ e' = upd e i None /\
  Permutation (handles e) (h :: handles e').
Proof.
  unfold take. destruct (borrow e i) as [x| |] eqn:E; cbn [bind]; intros Q; try discriminate.
  apply borrow_ok in E. assert (x = h) as -> by congruence. assert (e' = upd e i None) as -> by congruence.
  split; auto. split; auto. apply upd_handles. auto.
Qed.

(** Names keep their meaning from [e] to [e']. *)
Definition kept (e e' : env) : Prop :=
  (length e <= length e')%nat /\
  forall i h, (i < length e)%nat -> nth_error e' i = Some (Some h) -> nth_error e i = Some (Some h).

Lemma kept_refl e : kept e e.
Proof. split; auto. Qed.
Lemma kept_trans e1 e2 e3 : kept e1 e2 -> kept e2 e3 -> kept e1 e3.
Proof. intros [L1 H1] [L2 H2]. split; [lia|]. intros i h Hi H. apply H1; auto. apply H2; auto. lia. Qed.
Lemma kept_app e x : kept e (e ++ [x]).
Proof. split; [rewrite app_length; lia|]. intros i h Hi H. rewrite nth_error_app1 in H by auto. auto. Qed.
Lemma nth_error_upd_none (e : env) j : forall i h, nth_error (upd e j None) i = Some (Some h) -> nth_error e i = Some (Some h).
Proof.
  revert j. induction e as [|x e IH]; intros j i h; [destruct j; auto|].
  destruct j as [|j], i as [|i]; cbn [upd nth_error]; auto; [discriminate|]. apply IH.
Qed.
Lemma length_upd_env (e : env) j x : length (upd e j x) = length e.
Proof. revert j. induction e as [|y e IH]; intros [|j]; cbn [upd length]; auto. Qed.
Lemma kept_take e i : kept e (upd e i None).
Proof. split; [rewrite length_upd_env; lia|]. intros j h _ H. eapply nth_error_upd_none; eauto. Qed.

Lemma live_perm l l' : Permutation l l' -> live l = live l'.
Proof.
  unfold live. induction 1; cbn [filter]; try congruence;
    repeat match goal with |- context [if ?b then _ else _] => destruct b end; cbn [length]; lia.
Qed.

(** A step from [e], [st] to [e'], [st']. *)
Definition sound (P : Z) (e : env) (st : store (list Z)) (e' : env) (st' : store (list Z)) : Prop :=
  consistent P st' (handles e') /\ kept e e' /\
  forall i h, (i < length e)%nat -> nth_error e' i = Some (Some h) -> forall v, denotes st h v -> denotes st' h v.

(** Unless there was a unary minus, no negated zero appears. *)
Definition clean (c : command) (e e' : env) : Prop :=
  no_minus c = true -> Forall nonnz (handles e) -> Forall nonnz (handles e').

Lemma sound_run_ P n e0 e refs ins (m : M Z) Q st e' st' :
  safe P n refs ins m one Q -> Permutation (handles e0) (ins ++ handles e) -> kept e0 e ->
  incl refs (handles e) -> consistent P st (handles e0) -> room P (handles e0) n ->
  bind_new e m st = Ok (e', st') -> sound P e0 st e' st' /\ exists c, e' = e ++ [Some c] /\ Q c.
Proof.
  intros S Hp Hk Hi Hc Hr E. unfold bind_new in E.
  destruct (m st) as [[c st1]| |] eqn:Em; cbn [bind] in E; try discriminate.
  assert (e' = e ++ [Some c]) as -> by congruence. assert (st' = st1) as -> by congruence.
  destruct (S st (handles e)) with (r := c) (st' := st1) as (C & K & HQ); auto.
  - eapply con_perm; eauto.
  - unfold room in *. rewrite (live_perm _ _ Hp), live_app in Hr. lia.
  - split; [|eauto]. split; [|split].
    + rewrite handles_app. cbn. eapply con_perm; [|exact C]. cbn. apply Permutation_cons_append.
    + eapply kept_trans; [exact Hk|apply kept_app].
    + intros i h Hi' H v D. apply (K h v); auto. destruct Hk as [L _].
      rewrite nth_error_app1 in H by lia. eapply nth_handles; eauto.
Qed.

Lemma sound_ignore {A} P n e0 e refs ins (m : M A) st e' st' :
  safe P n refs ins m none any -> Permutation (handles e0) (ins ++ handles e) -> kept e0 e ->
  incl refs (handles e) -> consistent P st (handles e0) -> room P (handles e0) n ->
  ignoring e m st = Ok (e', st') -> sound P e0 st e' st' /\ e' = e.
Proof.
  intros S Hp Hk Hi Hc Hr E. unfold ignoring in E.
  destruct (m st) as [[c st1]| |] eqn:Em; cbn [bind] in E; try discriminate.
  assert (e' = e) as -> by congruence. assert (st' = st1) as -> by congruence.
  destruct (S st (handles e)) with (r := c) (st' := st1) as (C & K & _); auto.
  - eapply con_perm; eauto.
  - unfold room in *. rewrite (live_perm _ _ Hp), live_app in Hr. lia.
  - split; [|auto]. split; [exact C|]. split; auto.
    intros i h Hi' H v D. apply (K h v); auto. eapply nth_handles; eauto.
Qed.

Lemma clean_new c e0 e x ins : Permutation (handles e0) (ins ++ handles e) ->
  (no_minus c = true -> Forall nonnz (handles e0) -> nonnz x) -> clean c e0 (e ++ [Some x]).
Proof.
  intros Hp H Hm Hf. rewrite handles_app. apply Forall_app. split; [|repeat constructor; auto].
  rewrite Hp in Hf. apply Forall_app in Hf. apply Hf.
Qed.
Lemma clean_same c e0 e ins : Permutation (handles e0) (ins ++ handles e) -> clean c e0 e.
Proof. intros Hp Hm Hf. rewrite Hp in Hf. apply Forall_app in Hf. apply Hf. Qed.

Lemma fin_new P c n e0 e refs ins (m : M Z) (Q : Z -> Prop) st e' st' :
  safe P n refs ins m one Q -> Permutation (handles e0) (ins ++ handles e) -> kept e0 e ->
  incl refs (handles e) -> consistent P st (handles e0) -> room P (handles e0) n ->
  (forall x, Q x -> no_minus c = true -> Forall nonnz (handles e0) -> nonnz x) ->
  bind_new e m st = Ok (e', st') -> sound P e0 st e' st' /\ clean c e0 e'.
Proof.
  intros S Hp Hk Hi Hc Hr Hq E. destruct (sound_run_ P n e0 e refs ins m Q st e' st') as (H & x & -> & q); auto.
  split; auto. eapply clean_new; eauto.
Qed.
Lemma fin_none {A} P c n e0 e refs ins (m : M A) st e' st' :
  safe P n refs ins m none any -> Permutation (handles e0) (ins ++ handles e) -> kept e0 e ->
  incl refs (handles e) -> consistent P st (handles e0) -> room P (handles e0) n ->
  ignoring e m st = Ok (e', st') -> sound P e0 st e' st' /\ clean c e0 e'.
Proof.
  intros S Hp Hk Hi Hc Hr E. destruct (sound_ignore P n e0 e refs ins m st e' st') as (H & ->); auto.
  split; auto. eapply clean_same; eauto.
Qed.

Ltac borrowed E :=
  match type of E with
  | bind (borrow ?e ?a) _ = _ =>
    let H := fresh "B" in let x := fresh "x" in
    destruct (borrow e a) as [x| |] eqn:H; cbn [bind] in E; try discriminate E;
    apply borrow_ok in H; apply nth_handles in H
  end.
Ltac taken E :=
  match type of E with
  | bind (take ?e ?a) _ = _ =>
    let H := fresh "T" in let x := fresh "x" in let e1 := fresh "e" in
    destruct (take e a) as [[x e1]| |] eqn:H; cbn [bind] in E; try discriminate E;
    apply take_ok in H; destruct H as (? & -> & H)
  end.

Lemma step_sound_ dbg P c e st e' st' : consistent P st (handles e) -> room P (handles e) 8 ->
  step dbg c e st = Ok (e', st') -> sound P e st e' st' /\ clean c e e'.
Proof.
  intros Hc Hr E. destruct c; cbn [step] in E;
    try match type of E with context [literal ?t ?v] =>
          destruct (literal t v) eqn:HL; [|discriminate E]; apply literal_ok in HL; destruct HL as [HL1 HL2] end.
  - (* New *) eapply (fin_new P _ 8 e e [] []); eauto using kept_refl; [apply safe_bi_new|intros x []].
  - (* From *) eapply (fin_new P _ 8 e e [] []); eauto using kept_refl; [apply safe_from; auto; lia|intros x []].
  - (* Parse *)
    pose proof (safe_from_str_radix dbg P 8 [] s radix ltac:(lia) HL2) as S.
    destruct (bi_from_str_radix dbg s radix st) as [[r st1]| |] eqn:Em; cbn [bind] in E; try discriminate.
    destruct (S st (handles e) Hc Hr ltac:(intros x []) r st1 Em) as (C & K & HQ).
    destruct r as [c|er].
    + assert (e' = e ++ [Some c]) as -> by congruence. assert (st' = st1) as -> by congruence.
      split; [split; [|split]|].
      * rewrite handles_app. cbn. eapply con_perm; [|exact C]. cbn. apply Permutation_cons_append.
      * apply kept_app.
      * intros i h Hi' H v D. apply (K h v); auto. rewrite nth_error_app1 in H by lia. eapply nth_handles; eauto.
      * apply clean_new with (ins := []); auto.
    + assert (e' = e) as -> by congruence. assert (st' = st1) as -> by congruence.
      split; [|apply clean_same with (ins := []); auto]. split; [exact C|]. split; [apply kept_refl|].
      intros i h Hi' H v D. apply (K h v); auto. eapply nth_handles; eauto.
  - (* Clone *) borrowed E. eapply (fin_new P _ 8 e e [x] [] _ (fun c => c = x)); eauto using kept_refl.
    + apply safe_clone; [lia|left; auto].
    + intros y [<-|[]]. auto.
    + intros y -> _ Hf. rewrite Forall_forall in Hf. auto.
  - (* Drop *) taken E. eapply (fin_none P _ 8 e _ [] [x]); [..|exact E]; eauto using kept_take; [apply safe_drop|intros y []].
  - (* RefRef *) borrowed E. borrowed E. eapply (fin_new P _ 8 e e [x; x0] []); eauto using kept_refl.
    + apply (operate_safe o); [lia|left; auto|right; left; auto].
    + intros y [<-|[<-|[]]]; auto.
  - (* ValVal *) taken E. taken E. eapply (fin_new P _ 8 e _ [] [x; x0]); [..|exact E]; eauto.
    + apply (safe_by_val (fun dbg => operate dbg o) P 8 [] [] dbg x x0 (operate_safe o)). cbn [length]. lia.
    + rewrite T, T0. reflexivity.
    + eapply kept_trans; apply kept_take.
    + intros y [].
  - (* ValRef *) taken E. borrowed E. eapply (fin_new P _ 8 e _ [x0] [x]); [..|exact E]; eauto using kept_take.
    + apply (safe_by_val_ref (fun dbg => operate dbg o) P 8 [x0] [] dbg x x0 (operate_safe o)); [cbn [length]; lia|right; left; auto].
    + intros y [<-|[]]. auto.
  - (* RefVal *) taken E. borrowed E. eapply (fin_new P _ 8 e _ [x0] [x]); [..|exact E]; eauto using kept_take.
    + apply (safe_by_ref_val (fun dbg => operate dbg o) P 8 [x0] [] dbg x0 x (operate_safe o)); [cbn [length]; lia|right; left; auto].
    + intros y [<-|[]]. auto.
  - (* ValInt *) taken E. eapply (fin_new P _ 8 e _ [] [x]); [..|exact E]; eauto using kept_take.
    + apply (safe_op_int (fun dbg => operate dbg o) P 8 [] [] dbg t x v (operate_safe o)); auto. cbn [length]. lia.
    + intros y [].
  - (* Neg *) taken E. eapply (fin_new P _ 8 e _ [] [x] _ (fun c => c = bi_neg x)); [..|exact E]; eauto using kept_take; [apply safe_neg|intros y []|discriminate].
  - (* NegRef *) borrowed E. eapply (fin_new P _ 8 e e [x] [] _ any); [..|exact E]; eauto using kept_refl.
    + apply safe_neg_ref; [lia|left; auto].
    + intros y [<-|[]]. auto.
    + discriminate.
  - (* Not *) taken E. eapply (fin_new P _ 8 e _ [] [x]); [..|exact E]; eauto using kept_take; [apply safe_not; lia|intros y []].
  - (* Abs *) taken E. eapply (fin_new P _ 8 e _ [] [x]); [..|exact E]; eauto using kept_take; [apply safe_abs|intros y []].
  - (* Pow *) taken E. taken E. eapply (fin_new P _ 8 e _ [] [x; x0] _ (fun c => nonnz x -> nonnz c)); [..|exact E]; eauto.
    + apply safe_pow. lia.
    + rewrite T, T0. reflexivity.
    + eapply kept_trans; apply kept_take.
    + intros y [].
    + intros y Hy _ Hf. apply Hy. rewrite T in Hf. inversion Hf; auto.
  - (* Eq *) borrowed E. borrowed E. eapply (fin_none P _ 8 e e [] []); [..|exact E]; eauto using kept_refl; [apply (safe_reads P 8 [] [])|intros y []].
  - (* Cmp *) borrowed E. borrowed E. eapply (fin_none P _ 8 e e [] []); [..|exact E]; eauto using kept_refl; [apply (safe_reads P 8 [] [])|intros y []].
  - (* EqInt *) borrowed E. eapply (fin_none P _ 8 e e [] []); [..|exact E]; eauto using kept_refl; [apply (safe_reads P 8 [] [])|intros y []].
  - (* CmpInt *) borrowed E. eapply (fin_none P _ 8 e e [] []); [..|exact E]; eauto using kept_refl; [apply safe_cmp_int; auto; lia|intros y []].
  - (* TryFrom *) borrowed E. eapply (fin_none P _ 8 e e [] []); [..|exact E]; eauto using kept_refl; [apply safe_try_from; auto; lia|intros y []].
  - (* Truncate *) taken E. eapply (fin_none P _ 8 e _ [] [x]); [..|exact E]; eauto using kept_take; [apply safe_truncate; auto; lia|intros y []].
  - (* Saturate *) taken E. eapply (fin_none P _ 8 e _ [] [x]); [..|exact E]; eauto using kept_take; [apply safe_saturate; auto; lia|intros y []].
  - (* Show *) borrowed E. eapply (fin_none P _ 8 e e [x] []); [..|exact E]; eauto using kept_refl.
    + unfold bi_display. eapply safe_bind with (o1 := none); [apply safe_write_base; [lia|left; auto|reflexivity]|].
      intros s _. apply safe_ret0. exact I.
    + intros y [<-|[]]. auto.
  - (* ShowHex *) borrowed E. eapply (fin_none P _ 8 e e [x] []); [..|exact E]; eauto using kept_refl.
    + unfold bi_upper_hex. eapply safe_bind with (o1 := none); [apply safe_write_base; [lia|left; auto|reflexivity]|].
      intros s _. apply safe_ret0. exact I.
    + intros y [<-|[]]. auto.
  - (* ShowBin *) borrowed E. eapply (fin_none P _ 8 e e [] []); [..|exact E]; eauto using kept_refl.
    + unfold bi_binary. eapply safe_bind with (o1 := none); [apply (safe_reads P 8 [] [])|]. intros l _.
      eapply safe_bind with (o1 := none) (Q1 := any); [apply (safe_lift P 8 [] []); intros; exact I|]. intros o _.
      apply safe_ret0. exact I.
    + intros y [].
Qed.

Lemma step_sound dbg P c e st e' st' : consistent P st (handles e) -> room P (handles e) 8 ->
  step dbg c e st = Ok (e', st') -> sound P e st e' st'.
Proof. intros. eapply step_sound_; eauto. Qed.

Lemma sound_refl P e st : consistent P st (handles e) -> sound P e st e st.
Proof. intros. split; auto. split; auto using kept_refl. Qed.

Lemma sound_trans P e st e1 st1 e2 st2 : sound P e st e1 st1 -> sound P e1 st1 e2 st2 -> sound P e st e2 st2.
Proof.
  intros (C1 & K1 & V1) (C2 & K2 & V2). split; auto. split; [eapply kept_trans; eauto|].
  intros i h Hi H v D. destruct K1 as [L1 K1]. destruct K2 as [L2 K2].
  apply (V2 i h); auto; [lia|]. apply (V1 i h); auto. apply K2; auto. lia.
Qed.

Lemma run_peak dbg cs : forall e st p e' st' p', run dbg cs e st p = Ok (e', st', p') -> (p <= p')%nat.
Proof.
  induction cs as [|c cs IH]; intros e st p e' st' p' E; cbn [run] in E.
  - assert (p = p') by congruence. lia.
  - destruct (step dbg c e st) as [[e1 st1]| |]; cbn [bind] in E; try discriminate. apply IH in E. lia.
Qed.

Lemma run_sound dbg P cs : forall e st p e' st' p', consistent P st (handles e) -> (live (handles e) <= p)%nat ->
  run dbg cs e st p = Ok (e', st', p') -> Z.of_nat p' + 8 <= P -> sound P e st e' st' /\ (live (handles e') <= p')%nat.
Proof.
  induction cs as [|c cs IH]; intros e st p e' st' p' Hc Hp E HP; cbn [run] in E.
  - assert (e' = e) as -> by congruence. assert (st' = st) as -> by congruence. assert (p' = p) as -> by congruence.
    split; auto using sound_refl.
  - destruct (step dbg c e st) as [[e1 st1]| |] eqn:Es; cbn [bind] in E; try discriminate.
    pose proof (run_peak _ _ _ _ _ _ _ _ E) as Hpk.
    assert (sound P e st e1 st1) as S1. { eapply step_sound; eauto. unfold room. lia. }
    destruct (IH e1 st1 (Nat.max p (live (handles e1))) e' st' p' (proj1 S1) ltac:(lia) E HP) as [S2 L2].
    split; auto. eapply sound_trans; eauto.
Qed.

Lemma con_empty P : 0 <= P < 2 ^ 61 -> consistent P interner_new [].
Proof.
  intros H. constructor.
  - constructor.
  - intros k Hk. cbn [interner_new length] in Hk. lia.
  - constructor.
  - cbn. lia.
  - lia.
Qed.

Lemma run_from_start dbg cs e st p : run dbg cs [] interner_new 0 = Ok (e, st, p) -> Z.of_nat p + 8 < 2 ^ 61 ->
  consistent (Z.of_nat p + 8) st (handles e) /\ (live (handles e) <= p)%nat.
Proof.
  intros E Hp. destruct (run_sound dbg (Z.of_nat p + 8) cs [] interner_new 0 e st p) as [S L]; auto; try lia.
  - apply con_empty. lia.
  - split; [apply S|auto].
Qed.

Lemma run_clean dbg P cs : forall e st p e' st' p', consistent P st (handles e) -> (live (handles e) <= p)%nat ->
  run dbg cs e st p = Ok (e', st', p') -> Z.of_nat p' + 8 <= P -> forallb no_minus cs = true ->
  Forall nonnz (handles e) -> Forall nonnz (handles e').
Proof.
  induction cs as [|c cs IH]; intros e st p e' st' p' Hc Hp E HP Hm Hf; cbn [run] in E.
  - assert (e' = e) as -> by congruence. auto.
  - destruct (step dbg c e st) as [[e1 st1]| |] eqn:Es; cbn [bind] in E; try discriminate.
    pose proof (run_peak _ _ _ _ _ _ _ _ E) as Hpk. cbn [forallb] in Hm. apply andb_true_iff in Hm.
    destruct (step_sound_ dbg P c e st e1 st1) as [S1 C1]; auto. { unfold room. lia. }
    apply (IH e1 st1 (Nat.max p (live (handles e1))) e' st' p' (proj1 S1) ltac:(lia) E HP); [apply Hm|apply C1; auto; apply Hm].
Qed.
