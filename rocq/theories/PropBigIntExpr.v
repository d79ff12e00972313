(** Property C151: arithmetic expressions over BigInts. *)
From Coq Require Import ZArith List Bool Lia Permutation.
From Verif Require Import Base Spec BitSliceModel InternModel BigIntModel BigIntSpec BigIntProofs BigIntText BigIntRun PropBigInt PropBigInt4 BigIntExprModel.
Import ListNotations.
Local Open Scope Z_scope.

(** ** Specification *)

(** What the operators mean on integers. *)
Definition meaning (o : operator) (x y : Z) : Z :=
  match o with
  | OAdd => x + y | OSub => x - y | OMul => x * y | ODiv => Z.quot x y | ORem => Z.rem x y
  | OShl => x * 2 ^ y | OShr => Z.quot x (2 ^ y) | OAnd => Z.land x y | OOr => Z.lor x y | OXor => Z.lxor x y
  end.

Fixpoint value_with (meaning : operator -> Z -> Z -> Z) (xs : list Z) (e : expr) : Z :=
  match e with
  | Lit _ v => v
  | Cloned i => nth i xs 0
  | VarVar o i j => meaning o (nth i xs 0) (nth j xs 0)
  | ExpVar o e j => meaning o (value_with meaning xs e) (nth j xs 0)
  | VarExp o i e => meaning o (nth i xs 0) (value_with meaning xs e)
  | ExpExp o e f => meaning o (value_with meaning xs e) (value_with meaning xs f)
  | ExpInt o e _ v => meaning o (value_with meaning xs e) v
  | Power e f => value_with meaning xs e ^ value_with meaning xs f
  | Minus e => - value_with meaning xs e
  end.
Notation value := (value_with meaning).

(** Conditions under which single operators are right (C44-C46, C50, C51, C98). *)
Definition right_op (dbg : bool) (o : operator) (x y : Z) : Prop :=
  match o with
  | OAdd => add_exact x y
  | OSub => add_exact x (- y)
  | OMul => True
  | ODiv => y <> 0 /\ addressable x /\ (Z.abs y <= 2 ^ 63 \/ (Z.abs x < 2 ^ 64 /\ Z.abs y < 2 ^ 64))
  | ORem => 0 < y /\ addressable x /\ (Z.abs y <= 2 ^ 63 \/ (Z.abs x < 2 ^ 64 /\ Z.abs y < 2 ^ 64))
  | OShl => 0 <= y < 2 ^ 64
  | OShr => 0 <= y < 2 ^ 64 /\ (dbg = false \/ y < 64)
  | OAnd | OOr | OXor => 0 <= x /\ 0 <= y
  end.

(** [ok o x y] wherever an operator [o] is applied to values [x] and [y], [okp] wherever a power is taken, [okn] wherever a value
    is negated; variables exist, literals are of Rust's primitive types. *)
Fixpoint everywhere_with (meaning : operator -> Z -> Z -> Z) (ok : operator -> Z -> Z -> Prop) (okp : Z -> Z -> Prop) (okn : Z -> Prop) (xs : list Z) (e : expr) : Prop :=
  let go := everywhere_with meaning ok okp okn xs in
  let var i := (i < length xs)%nat in
  let lit t v := std_ty t /\ in_range t v = true in
  match e with
  | Lit t v => lit t v
  | Cloned i => var i
  | VarVar o i j => var i /\ var j /\ ok o (nth i xs 0) (nth j xs 0)
  | ExpVar o e j => go e /\ var j /\ ok o (value_with meaning xs e) (nth j xs 0)
  | VarExp o i e => var i /\ go e /\ ok o (nth i xs 0) (value_with meaning xs e)
  | ExpExp o e f => go e /\ go f /\ ok o (value_with meaning xs e) (value_with meaning xs f)
  | ExpInt o e t v => go e /\ lit t v /\ ok o (value_with meaning xs e) v
  | Power e f => go e /\ go f /\ okp (value_with meaning xs e) (value_with meaning xs f)
  | Minus e => go e /\ okn (value_with meaning xs e)
  end.
Notation everywhere := (everywhere_with meaning).

(** How many BigInts evaluation needs at once besides those that exist already. *)
Fixpoint temporaries (e : expr) : Z :=
  match e with
  | Lit _ _ | Cloned _ | VarVar _ _ _ => 0
  | ExpVar _ e _ | VarExp _ _ e => Z.max (temporaries e) 1
  | ExpExp _ e f => Z.max (Z.max (temporaries e) (1 + temporaries f)) 2
  | ExpInt _ e _ _ => Z.max (temporaries e) 2
  | Power e f => Z.max (Z.max (temporaries e) (1 + temporaries f)) 6
  | Minus e => temporaries e
  end.

(** Variables with their values. *)
Definition bound_to (st : store (list Z)) (hs vars xs : list Z) : Prop := Forall2 (proper st hs) vars xs.

(** What [+] and [-] of BigInts return, the wrong results included (C44): two too few or too many when the signs differ, the second
    number is the larger one and the result is even. *)
Definition bi_sum (x y : Z) : Z :=
  if xorb (x <? 0) (y <? 0) && (Z.abs x <? Z.abs y) && Z.even (x + y) then x + y - 2 * Z.sgn y else x + y.
Definition bi_diff (x y : Z) : Z := bi_sum x (- y).

(** What [&], [|] and [^] return (C98): the operator on the magnitudes, with the sign of the first number. *)
Definition on_magnitudes (op : Z -> Z -> Z) (x y : Z) : Z := (if x <? 0 then -1 else 1) * op (Z.abs x) (Z.abs y).

(** What the operators return, the wrong results included, and the limits within which they do so (C46, C50, C51). *)
Definition outcome (o : operator) (x y : Z) : Z :=
  match o with
  | OAdd => bi_sum x y
  | OSub => bi_diff x y
  | ORem => Z.rem x y * Z.sgn y
  | OAnd => on_magnitudes Z.land x y
  | OOr => on_magnitudes Z.lor x y
  | OXor => on_magnitudes Z.lxor x y
  | OMul | ODiv | OShl | OShr => meaning o x y
  end.
Definition fit_op (dbg : bool) (o : operator) (x y : Z) : Prop :=
  match o with
  | OAdd | OSub | OMul | OAnd | OOr | OXor => True
  | ODiv | ORem => right_op dbg ODiv x y
  | OShl | OShr => right_op dbg o x y
  end.

(** ** Proofs *)

Lemma operate_right dbg o P st hs a b x y : consistent P st hs -> room P hs 0 -> proper st hs a x -> proper st hs b y ->
  right_op dbg o x y -> yields P hs (operate dbg o a b) st (meaning o x y).
Proof.
  intros Hc Hr Pa Pb H. assert (is_int st hs a x) as Ia by (destruct Pa as (? & ? & ?); split; auto).
  assert (is_int st hs b y) as Ib by (destruct Pb as (? & ? & ?); split; auto).
  destruct o; cbn [operate meaning right_op] in *.
  - apply (proj1 (C44_add_sub_partial dbg P st hs a b x y Hc Hr Pa Pb)); auto.
  - apply (proj2 (C44_add_sub_partial dbg P st hs a b x y Hc Hr Pa Pb)); auto.
  - apply C45_mul_exact; auto.
  - destruct H as (H1 & H2 & H3). apply (C46_div_rem_partial dbg P st hs a b x y); auto.
  - destruct H as (H1 & H2 & H3). destruct (C46_div_rem_partial dbg P st hs a b x y) as (_ & R & _); auto; try lia.
    rewrite Z.sgn_pos, Z.mul_1_r in R by auto. exact R.
  - apply (C50_left_shift dbg P st hs a b x y); auto.
  - destruct H as (H1 & H2). apply (C51_right_shift_partial dbg P st hs a b x y); auto.
  - destruct H as (H1 & H2). apply (C98_bitwise_partial dbg P st hs a b x y); auto.
  - destruct H as (H1 & H2). apply (C98_bitwise_partial dbg P st hs a b x y); auto.
  - destruct H as (H1 & H2). apply (C98_bitwise_partial dbg P st hs a b x y); auto.
Qed.

(** Operator [o] of BigInts that hold [x] and [y] returns [v]. *)
Definition does (dbg : bool) (o : operator) (x y v : Z) : Prop := forall P st hs a b, consistent P st hs -> room P hs 0 ->
  proper st hs a x -> proper st hs b y -> yields P hs (operate dbg o a b) st v.
Lemma F2_impl {A B} (P Q : A -> B -> Prop) (l : list A) (l' : list B) : (forall x y, P x y -> Q x y) -> Forall2 P l l' -> Forall2 Q l l'.
Proof. intros H. induction 1; constructor; auto. Qed.
Lemma does_right dbg o x y : right_op dbg o x y -> does dbg o x y (meaning o x y).
Proof. intros R P st hs a b. intros. apply operate_right; auto. Qed.
Lemma exact_sum x y : (add_exact x y /\ bi_sum x y = x + y) \/ (~ add_exact x y /\ bi_sum x y = x + y - 2 * Z.sgn y).
Proof.
  unfold add_exact, bi_sum. rewrite <- (Z.negb_odd (x + y)).
  destruct (Z.ltb_spec x 0), (Z.ltb_spec y 0), (Z.ltb_spec (Z.abs x) (Z.abs y)), (Z.odd (x + y)) eqn:O; cbn [xorb negb andb];
    (left; split; [first [left; lia|right; left; lia|right; right; left; lia|right; right; right; reflexivity]|reflexivity]) ||
    (right; split; [intros [Q|[Q|[Q|Q]]]; [lia|lia|lia|discriminate]|reflexivity]).
Qed.
Lemma does_sum dbg x y : does dbg OAdd x y (bi_sum x y).
Proof.
  intros P st hs a b C R Ha Hb. cbn [operate]. destruct (exact_sum x y) as [[E ->]|[E ->]].
  - apply (C44_add_sub_partial dbg P st hs a b x y); auto.
  - apply (C44_add_sub_otherwise_partial dbg P st hs a b x y); auto.
Qed.
Lemma does_diff dbg x y : does dbg OSub x y (bi_diff x y).
Proof.
  intros P st hs a b C R Ha Hb. cbn [operate]. unfold bi_diff. destruct (exact_sum x (- y)) as [[E ->]|[E ->]].
  - apply (C44_add_sub_partial dbg P st hs a b x y); auto.
  - assert (y <> 0) by (intros ->; apply E; right; right; left; cbn; lia).
    replace (x + - y - 2 * Z.sgn (- y)) with (x - y + 2 * Z.sgn y) by (rewrite Z.sgn_opp; lia).
    apply (C44_add_sub_otherwise_partial dbg P st hs a b x y); auto.
Qed.
Lemma does_mul dbg x y : does dbg OMul x y (x * y).
Proof. apply (does_right dbg OMul). exact I. Qed.

Lemma does_returned dbg o x y : fit_op dbg o x y -> does dbg o x y (outcome o x y).
Proof.
  destruct o; cbn [fit_op outcome]; intros H; try (apply does_right, H); try apply does_sum; try apply does_diff; intros P st hs a b C R Ha Hb; cbn [operate].
  - destruct H as (H1 & H2 & H3). apply (C46_div_rem_partial dbg P st hs a b x y); auto; [split; apply Ha|split; apply Hb].
  - apply (C98_signs_partial dbg P st hs a b x y); auto; split; apply Hb.
  - apply (C98_signs_partial dbg P st hs a b x y); auto; split; apply Hb.
  - apply (C98_signs_partial dbg P st hs a b x y); auto; split; apply Hb.
Qed.

(** Where an operator is right it returns what it should. *)
Lemma op_right dbg o x y : right_op dbg o x y -> fit_op dbg o x y /\ outcome o x y = meaning o x y.
Proof.
  destruct o; cbn [right_op fit_op outcome meaning]; intros H; auto.
  - split; auto. destruct (exact_sum x y) as [[_ E]|[E _]]; [auto|contradiction].
  - split; auto. unfold bi_diff. destruct (exact_sum x (- y)) as [[_ E]|[E _]]; [lia|contradiction].
  - destruct H as (H1 & H2 & H3). split; [split; [lia|auto]|]. rewrite (Z.sgn_pos y) by lia. lia.
  - split; auto. unfold on_magnitudes. rewrite (proj2 (Z.ltb_ge x 0)), !Z.abs_eq by lia. lia.
  - split; auto. unfold on_magnitudes. rewrite (proj2 (Z.ltb_ge x 0)), !Z.abs_eq by lia. lia.
  - split; auto. unfold on_magnitudes. rewrite (proj2 (Z.ltb_ge x 0)), !Z.abs_eq by lia. lia.
Qed.
Lemma right_returned dbg okp okn xs e : everywhere (right_op dbg) okp okn xs e ->
  everywhere_with outcome (fit_op dbg) okp okn xs e /\ value_with outcome xs e = value xs e.
Proof.
  induction e as [t v|i|o i j|o e IHe j|o i e IHe|o e IHe f IHf|o e IHe t v|e IHe f IHf|e IHe]; cbn [everywhere_with value_with]; auto.
  - intros (Hi & Hj & H). destruct (op_right _ _ _ _ H). auto.
  - intros (He & Hj & H). destruct (IHe He) as [F ->]. destruct (op_right _ _ _ _ H). auto.
  - intros (Hi & He & H). destruct (IHe He) as [F ->]. destruct (op_right _ _ _ _ H). auto.
  - intros (He & Hf & H). destruct (IHe He) as [F ->]. destruct (IHf Hf) as [F' ->]. destruct (op_right _ _ _ _ H). auto.
  - intros (He & Hl & H). destruct (IHe He) as [F ->]. destruct (op_right _ _ _ _ H). auto.
  - intros (He & Hf & H). destruct (IHe He) as [F ->]. destruct (IHf Hf) as [F' ->]. auto.
  - intros (He & H). destruct (IHe He) as [F ->]. auto.
Qed.

Lemma yields_then P st hs (m : M Z) (f : Z -> M Z) x v : yields P hs m st x ->
  (forall a st', consistent P st' (a :: hs) -> keeps st st' hs -> denotes st' a x -> a <> neg_zero -> yields P hs (f a) st' v) ->
  yields P hs (let! a := m in f a) st v.
Proof.
  intros (a & st1 & E & C & K & D & N) H. destruct (H a st1 C K D N) as (c & st2 & E2 & C2 & K2 & D2 & N2).
  exists c, st2. split; [unfold mbind; rewrite E; exact E2|]. split; auto. split; auto. eapply keeps_trans; eauto.
Qed.

Lemma bound_keeps st st' hs hs' vars xs : bound_to st hs vars xs -> keeps st st' hs -> incl hs hs' -> bound_to st' hs' vars xs.
Proof.
  intros B K I. unfold bound_to in *. induction B as [|h x vars xs (H1 & H2 & H3) B IH]; constructor; auto.
  split; [auto|]. split; auto.
Qed.
Lemma bound_nth st hs vars xs i : bound_to st hs vars xs -> (i < length xs)%nat -> proper st hs (nth i vars 0) (nth i xs 0).
Proof.
  intros B. revert i. induction B as [|h x vars xs H B IH]; intros i L; cbn [length] in L; [lia|].
  destruct i; cbn [nth]; auto. apply IH. lia.
Qed.

Section Expressions.
Variables (dbg : bool) (fuel : nat) (P : Z) (vars xs : list Z) (m : operator -> Z -> Z -> Z) (ok : operator -> Z -> Z -> Prop).
Hypothesis Hok : forall o x y, ok o x y -> does dbg o x y (m o x y).
Notation okp := (fun x y : Z => 0 <= y <= Z.of_nat fuel).
Notation okn := (fun x : Z => x <> 0).

Lemma eval_right : forall e st hs, everywhere_with m ok okp okn xs e -> consistent P st hs -> room P hs (temporaries e) ->
  bound_to st hs vars xs -> yields P hs (eval dbg fuel vars e) st (value_with m xs e).
Proof.
  assert (forall (st : store (list Z)) hs (a x : Z), denotes st a x -> a <> neg_zero -> In a hs -> proper st hs a x) as HP
    by (intros; split; auto).
  induction e as [t v|i|o i j|o e IH j|o i e IH|o e IHe f IHf|o e IH t v|e IHe f IHf|e IH];
    intros st hs H Hc Hr B; cbn [everywhere_with eval value_with temporaries] in *.
  - destruct H as [Ht Hv]. exact (proj1 (C41_from_exact dbg t v P st hs Hc Hr Ht Hv)).
  - destruct (bound_nth _ _ _ _ _ B H) as (I1 & D1 & N1). destruct (clone_spec dbg P st hs _ Hc Hr I1) as (st' & E & C & K).
    exists (nth i vars 0), st'. split; auto.
  - destruct H as (L1 & L2 & H). apply Hok; auto; apply bound_nth; auto.
  - destruct H as (He & L & H). eapply yields_then; [apply IH; auto; eapply room_le; [|exact Hr]; lia|]. intros a st' C K D N.
    apply (C45_owned_forms dbg o P st' hs a (nth j vars 0)). apply Hok; auto.
    + apply room_cons. eapply room_le; [|exact Hr]. lia.
    + apply HP; auto. left; auto.
    + apply bound_nth; auto. eapply bound_keeps; eauto. apply incl_tl, incl_refl.
  - destruct H as (L & He & H). eapply yields_then; [apply IH; auto; eapply room_le; [|exact Hr]; lia|]. intros b st' C K D N.
    apply (C45_owned_forms dbg o P st' hs (nth i vars 0) b). apply Hok; auto.
    + apply room_cons. eapply room_le; [|exact Hr]. lia.
    + apply bound_nth; auto. eapply bound_keeps; eauto. apply incl_tl, incl_refl.
    + apply HP; auto. left; auto.
  - destruct H as (He & Hf & H). eapply yields_then; [apply IHe; auto; eapply room_le; [|exact Hr]; lia|]. intros a st1 C1 K1 D1 N1.
    destruct (IHf st1 (a :: hs)) as (b & st2 & E2 & C2 & K2 & D2 & N2); auto.
    { apply room_cons. eapply room_le; [|exact Hr]. lia. }
    { eapply bound_keeps; eauto. apply incl_tl, incl_refl. }
    assert (yields P hs (by_val (operate dbg o) a b) st2 (m o (value_with m xs e) (value_with m xs f))) as (c & st3 & E3 & C3 & K3 & D3 & N3).
    { apply (C45_owned_forms dbg o P st2 hs a b). apply Hok; auto.
      - eapply con_perm; [apply perm_swap|exact C2].
      - do 2 apply room_cons. eapply room_le; [|exact Hr]. lia.
      - apply HP; auto; [|left; auto]. apply K2; auto. left; auto.
      - apply HP; auto. right; left; auto. }
    exists c, st3. split; [unfold mbind; rewrite E2; exact E3|]. split; auto. split; auto.
    eapply keeps_trans; [eapply keeps_incl; [exact K2|apply incl_tl, incl_refl]|exact K3].
  - destruct H as (He & (Ht & Hv) & H). eapply yields_then; [apply IH; auto; eapply room_le; [|exact Hr]; lia|]. intros a st' C K D N.
    apply op_int_spec with (x := value_with m xs e); auto.
    + apply room_cons. eapply room_le; [|exact Hr]. lia.
    + intros st1 b C1 Da Db Nb. apply Hok; auto.
      * do 2 apply room_cons. eapply room_le; [|exact Hr]. lia.
      * apply HP; auto. left; auto.
      * apply HP; auto. right; left; auto.
  - destruct H as (He & Hf & H). eapply yields_then; [apply IHe; auto; eapply room_le; [|exact Hr]; lia|]. intros a st1 C1 K1 D1 N1.
    destruct (IHf st1 (a :: hs)) as (b & st2 & E2 & C2 & K2 & D2 & N2); auto.
    { apply room_cons. eapply room_le; [|exact Hr]. lia. }
    { eapply bound_keeps; eauto. apply incl_tl, incl_refl. }
    destruct (C55_pow dbg P st2 hs a b (value_with m xs e) (value_with m xs f)) with (fuel := fuel) as (c & st3 & E3 & C3 & K3 & D3 & N3); auto; try lia.
    { eapply con_perm; [apply perm_swap|exact C2]. }
    { eapply room_le; [|exact Hr]. lia. }
    { apply K2; auto. left; auto. }
    exists c, st3. split; [unfold mbind; rewrite E2; exact E3|]. split; auto. split; auto.
    eapply keeps_trans; [eapply keeps_incl; [exact K2|apply incl_tl, incl_refl]|exact K3].
  - destruct H as (He & H). eapply yields_then; [apply IH; auto|]. intros a st' C K D N.
    destruct (proj1 (C43_negation_denotes_partial dbg P st' hs a (value_with m xs e)) C D) as [C' D'].
    exists (bi_neg a), st'. split; [reflexivity|]. split; auto. split; [apply keeps_refl|]. split; auto.
    intros Q. rewrite Q in D'. change (- value_with m xs e = 0) in D'. lia.
Qed.
End Expressions.

(** Expressions whose every operator is applied within the limits of that operator. *)
Theorem C151_each_step : forall dbg fuel P st hs vars xs e,
  consistent P st hs -> room P hs (temporaries e) -> bound_to st hs vars xs ->
  everywhere (right_op dbg) (fun _ y => 0 <= y <= Z.of_nat fuel) (fun x => x <> 0) xs e ->
  yields P hs (eval dbg fuel vars e) st (value xs e).
Proof. intros. apply (eval_right dbg fuel P vars xs meaning (right_op dbg)); auto. intros o x y. apply does_right. Qed.
Print Assumptions C151_each_step.

(** Expressions of integers of any signs, without conditions on the sums: the result is what the operators return one by one. *)
Theorem C151_any : forall dbg fuel P st hs vars xs e,
  consistent P st hs -> room P hs (temporaries e) -> bound_to st hs vars xs ->
  everywhere_with outcome (fit_op dbg) (fun _ y => 0 <= y <= Z.of_nat fuel) (fun x => x <> 0) xs e ->
  yields P hs (eval dbg fuel vars e) st (value_with outcome xs e).
Proof. intros. apply (eval_right dbg fuel P vars xs outcome (fit_op dbg)); auto. intros o x y. apply does_returned. Qed.
Print Assumptions C151_any.

(** Expressions of non-negative numbers with [+], [*], [&], [|], [^], shifts to the left by less than 2^64, and powers. *)
Fixpoint natural (fuel : nat) (xs : list Z) (e : expr) : Prop :=
  let op o := In o [OAdd; OMul; OAnd; OOr; OXor; OShl] in
  let var i := (i < length xs)%nat in
  let lit t v := std_ty t /\ in_range t v = true /\ 0 <= v in
  let small o y := o = OShl -> y < 2 ^ 64 in
  match e with
  | Lit t v => lit t v
  | Cloned i => var i
  | VarVar o i j => op o /\ var i /\ var j /\ small o (nth j xs 0)
  | ExpVar o e j => op o /\ natural fuel xs e /\ var j /\ small o (nth j xs 0)
  | VarExp o i e => op o /\ var i /\ natural fuel xs e /\ small o (value xs e)
  | ExpExp o e f => op o /\ natural fuel xs e /\ natural fuel xs f /\ small o (value xs f)
  | ExpInt o e t v => op o /\ natural fuel xs e /\ lit t v /\ small o v
  | Power e f => natural fuel xs e /\ natural fuel xs f /\ value xs f <= Z.of_nat fuel
  | Minus _ => False
  end.

Lemma natural_op dbg o x y : In o [OAdd; OMul; OAnd; OOr; OXor; OShl] -> 0 <= x -> 0 <= y -> (o = OShl -> y < 2 ^ 64) ->
  0 <= meaning o x y /\ right_op dbg o x y.
Proof.
  intros Ho Hx Hy Hs. cbn [In] in Ho. repeat destruct Ho as [<-|Ho]; try contradiction; cbn [meaning right_op].
  - split; [lia|]. left. auto.
  - split; [nia|auto].
  - split; [|auto]. apply Z.land_nonneg. auto.
  - split; [|auto]. apply Z.lor_nonneg. auto.
  - split; [|auto]. apply Z.lxor_nonneg. tauto.
  - specialize (Hs eq_refl). split; [|lia]. apply Z.mul_nonneg_nonneg; auto. apply Z.pow_nonneg. lia.
Qed.
Lemma natural_right dbg fuel xs : Forall (fun x => 0 <= x) xs -> forall e, natural fuel xs e ->
  0 <= value xs e /\ everywhere (right_op dbg) (fun _ y => 0 <= y <= Z.of_nat fuel) (fun x => x <> 0) xs e.
Proof.
  intros F. assert (forall i, 0 <= nth i xs 0) as V.
  { intros i. destruct (Nat.lt_ge_cases i (length xs)) as [L|L]; [|rewrite nth_overflow by auto; lia].
    rewrite Forall_forall in F. apply F, nth_In, L. }
  induction e as [t v|i|o i j|o e IH j|o i e IH|o e IHe f IHf|o e IH t v|e IHe f IHf|e IH]; cbn [natural value_with everywhere_with].
  - intuition auto.
  - auto.
  - intros (H1 & H2 & H3 & H4). destruct (natural_op dbg o (nth i xs 0) (nth j xs 0)); auto.
  - intros (H1 & H2 & H3 & H4). destruct (IH H2). destruct (natural_op dbg o (value xs e) (nth j xs 0)); auto.
  - intros (H1 & H2 & H3 & H4). destruct (IH H3). destruct (natural_op dbg o (nth i xs 0) (value xs e)); auto.
  - intros (H1 & H2 & H3 & H4). destruct (IHe H2), (IHf H3). destruct (natural_op dbg o (value xs e) (value xs f)); auto.
  - intros (H1 & H2 & (H3 & H4 & H5) & H6). destruct (IH H2). destruct (natural_op dbg o (value xs e) v); auto.
  - intros (H1 & H2 & H3). destruct (IHe H1), (IHf H2). split; [apply Z.pow_nonneg; auto|]. auto.
  - intros [].
Qed.

(** No condition on the operands but that they are not negative: the result is the value of the expression, a single BigInt; all
    temporaries are gone and the variables keep their values. *)
Theorem C151_natural : forall dbg fuel P st hs vars xs e,
  consistent P st hs -> room P hs (temporaries e) -> bound_to st hs vars xs -> Forall (fun x => 0 <= x) xs -> natural fuel xs e ->
  exists c st', eval dbg fuel vars e st = Ok (c, st') /\ consistent P st' (c :: hs) /\ keeps st st' hs /\
    denotes st' c (value xs e) /\ 0 <= value xs e.
Proof.
  intros dbg fuel P st hs vars xs e Hc Hr B F N. destruct (natural_right dbg fuel xs F e N) as [V H].
  destruct (C151_each_step dbg fuel P st hs vars xs e Hc Hr B H) as (c & st' & E & C & K & D & _). exists c, st'. auto.
Qed.
Print Assumptions C151_natural.

(** So the laws of the natural numbers hold of BigInts under [==]: expressions of equal value give BigInts that compare equal,
    however they are written. *)
Theorem C151_laws : forall dbg fuel P st hs vars xs e f,
  consistent P st hs -> room P hs (1 + Z.max (temporaries e) (temporaries f)) -> bound_to st hs vars xs ->
  Forall (fun x => 0 <= x) xs -> natural fuel xs e -> natural fuel xs f ->
  exists c d st', (let! a := eval dbg fuel vars e in let! b := eval dbg fuel vars f in ret (a, b)) st = Ok ((c, d), st') /\
    bi_eq st' c d = Ok (value xs e =? value xs f).
Proof.
  intros dbg fuel P st hs vars xs e f Hc Hr B F Ne Nf.
  destruct (natural_right dbg fuel xs F e Ne) as [V1 H1]. destruct (natural_right dbg fuel xs F f Nf) as [V2 H2].
  destruct (C151_each_step dbg fuel P st hs vars xs e) as (c & st1 & E1 & C1 & K1 & D1 & N1); auto.
  { eapply room_le; [|exact Hr]. lia. }
  destruct (C151_each_step dbg fuel P st1 (c :: hs) vars xs f) as (d & st2 & E2 & C2 & K2 & D2 & N2); auto.
  { apply room_cons. eapply room_le; [|exact Hr]. lia. }
  { eapply bound_keeps; eauto. apply incl_tl, incl_refl. }
  exists c, d, st2. split; [unfold mbind; rewrite E1; cbn [bind]; rewrite E2; reflexivity|].
  apply (C42_equality_is_value_equality P st2 (d :: c :: hs)); auto.
  - split; [right; left; auto|]. split; auto. apply K2; auto. left; auto.
  - split; [left; auto|]. split; auto.
Qed.
Print Assumptions C151_laws.

(** Two of the variables of the demonstration store of PropBigInt.v, [x = 2^100 + 3] and [z = 9]:
    [(&x + z.clone()) * 7u8 + (&x << &z)] and [&x * (BigInt::from(7) + (BigInt::from(2).pow(z.clone()))) + 63]. *)
Definition demo_e : expr :=
  ExpExp OAdd (ExpInt OMul (VarExp OAdd 0 (Cloned 1)) U8 7) (VarVar OShl 0 1).
Definition demo_f : expr :=
  ExpInt OAdd (VarExp OMul 0 (ExpExp OAdd (Lit I32 7) (Power (Lit I32 2) (Cloned 1)))) I32 63.
Example C151_demo : consistent 11 demo_st demo_hs /\ room 11 demo_hs (1 + Z.max (temporaries demo_e) (temporaries demo_f)) /\
  bound_to demo_st demo_hs [0; 38] [2 ^ 100 + 3; 9] /\ natural 20 [2 ^ 100 + 3; 9] demo_e /\ natural 20 [2 ^ 100 + 3; 9] demo_f /\
  value [2 ^ 100 + 3; 9] demo_e = (2 ^ 100 + 3) * 519 + 63 /\ value [2 ^ 100 + 3; 9] demo_f = (2 ^ 100 + 3) * 519 + 63.
Proof.
  split; [apply demo_consistent|]. split; [vm_compute; discriminate|].
  split; [constructor; [apply demo_a'|constructor; [apply demo_d'|constructor]]|].
  split; [|split; [|split; vm_compute; reflexivity]];
    (cbn [natural demo_e demo_f In length std_ty U8 I32 ibits value_with nth meaning]; repeat split; auto 10; try discriminate; try lia; vm_compute; auto; discriminate).
Qed.

(** [z.clone() - &x] for the same variables: two off, since [z < x] and both are odd. *)
Definition demo_g : expr := ExpVar OSub (Cloned 1) 0.
Example C151_any_demo :
  everywhere_with outcome (fit_op false) (fun _ y => 0 <= y <= 20) (fun x => x <> 0) [2 ^ 100 + 3; 9] demo_g /\
  room 11 demo_hs (temporaries demo_g) /\ value [2 ^ 100 + 3; 9] demo_g = 6 - 2 ^ 100 /\ value_with outcome [2 ^ 100 + 3; 9] demo_g = 8 - 2 ^ 100.
Proof. cbn [everywhere_with demo_g value_with nth length fit_op]. split; [auto 10|]. repeat split; vm_compute; congruence. Qed.

(** [((z.clone() - &x) & 12) % -5]: the difference is two off, [&] acts on the magnitudes and [%] has the wrong sign. *)
Definition demo_h : expr := ExpInt ORem (ExpInt OAnd demo_g t_i32 12) t_i32 (-5).
Example C151_any_signs_demo :
  everywhere_with outcome (fit_op false) (fun _ y => 0 <= y <= 20) (fun x => x <> 0) [2 ^ 100 + 3; 9] demo_h /\
  room 11 demo_hs (temporaries demo_h) /\ value [2 ^ 100 + 3; 9] demo_h = 4 /\ value_with outcome [2 ^ 100 + 3; 9] demo_h = 3.
Proof.
  cbn [everywhere_with demo_h demo_g value_with nth length fit_op right_op outcome]. split.
  - split; [|split; [split; [apply std_i32|reflexivity]|split; [discriminate|split; [vm_compute; reflexivity|left; vm_compute; discriminate]]]].
    split; [auto 10|]. split; [split; [apply std_i32|reflexivity]|exact I].
  - repeat split; vm_compute; congruence.
Qed.
