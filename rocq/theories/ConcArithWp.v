(** What a program of ConcArithModel.v does for its thread, whatever the others do: if reading through a reference gives the limbs
    it was made for, and [add] returns some id whose references are for those limbs, the program ends with the right word. *)
From Coq Require Import ZArith List Bool Lia Permutation.
From Verif Require Import Base Words Spec Arith BitSliceModel BitSliceProofs ElementModel BitwiseModel ElemAddSub ElemMul ElemShift BitwiseProofs
  InternModel InternProofs BigIntModel BigIntSpec BigIntProofs BigIntOps BigIntConv BigIntMore BigIntText BigIntSafe BigIntRun PropBigInt BigIntExprModel PropBigIntExpr ConcArithModel.
Import ListNotations.
Local Open Scope Z_scope.

(** References: an id and the limbs it stands for.  [V]: of the variables; [O]: of the thread itself. *)
Notation tab := (list (Z * list Z)).
Definition fn (T : tab) : Prop := forall k l l', In (k, l) T -> In (k, l') T -> l = l'.

(** Expressions in whose evaluation no number of 2^62 or more in magnitude is made, variables and their clones and negations excepted; no shifts,
    since the amount of a shift is compared with [usize::MAX]. *)
Definition modest_op (o : operator) (x y : Z) : Prop := o <> OShl /\ o <> OShr /\ Z.abs (outcome o x y) < 2 ^ 62.
Fixpoint modest (xs : list Z) (e : expr) : Prop :=
  let v := value_with outcome xs in
  match e with
  | Lit _ v => Z.abs v < 2 ^ 62
  | Cloned _ => True
  | VarVar o i j => modest_op o (nth i xs 0) (nth j xs 0)
  | ExpVar o e j => modest xs e /\ modest_op o (v e) (nth j xs 0)
  | VarExp o i e => modest xs e /\ modest_op o (nth i xs 0) (v e)
  | ExpExp o e f => modest xs e /\ modest xs f /\ modest_op o (v e) (v f)
  | ExpInt o e _ z => modest xs e /\ Z.abs z < 2 ^ 62 /\ modest_op o (v e) z
  | Power e f => modest xs e /\ modest xs f /\ v f < 2 ^ 62 /\ Z.abs (v e ^ v f) < 2 ^ 62
  | Minus e => modest xs e
  end.

(** [adds]: whether the program may call [add] at all. *)
Section Wp.
Context (adds : bool).
Definition light (v : Z) : Prop := adds = true \/ Z.abs v < 2 ^ 62.
Definition light_op (o : operator) (x y : Z) : Prop := adds = true \/ modest_op o x y.

Fixpoint wp {A} (V O : tab) (p : prog A) (Q : tab -> A -> Prop) : Prop :=
  match p with
  | PStop r => exists a, r = Ok a /\ Q O a
  | PGet k f => exists l, In (k, l) (V ++ O) /\ wp V O (f l) Q
  | PAdd l f => adds = true /\ forall k, 0 <= k <= max_offset -> fn (V ++ (k, l) :: O) -> wp V ((k, l) :: O) (f k) Q
  | PIncr k p => exists l, In (k, l) (V ++ O) /\ wp V ((k, l) :: O) p Q
  | PDecr k p => exists l O1 O2, O = O1 ++ (k, l) :: O2 /\ wp V (O1 ++ O2) p Q
  end.

Lemma wp_bind {A B} V (p : prog A) (g : A -> prog B) Q : forall O, wp V O p (fun O a => wp V O (g a) Q) -> wp V O (pbind p g) Q.
Proof.
  induction p as [r|k f IH|l f IH|k p IH|k p IH]; intros O; cbn [wp pbind].
  - intros (a & -> & H). exact H.
  - intros (l & I & H). eauto.
  - intros [Ha H]. split; [exact Ha|]. intros k Hk F. auto.
  - intros (l & I & H). eauto.
  - intros (l & O1 & O2 & E & H). exists l, O1, O2. auto.
Qed.
Lemma wp_mono {A} V (p : prog A) (Q Q' : tab -> A -> Prop) : (forall O a, Q O a -> Q' O a) -> forall O, wp V O p Q -> wp V O p Q'.
Proof.
  intros HQ. induction p as [r|k f IH|l f IH|k p IH|k p IH]; intros O; cbn [wp].
  - intros (a & -> & H). eauto.
  - intros (l & I & H). eauto.
  - intros [Ha H]. split; [exact Ha|]. intros k Hk F. auto.
  - intros (l & I & H). eauto.
  - intros (l & O1 & O2 & E & H). exists l, O1, O2. auto.
Qed.
Lemma fn_incl (T T' : tab) : incl T' T -> fn T -> fn T'.
Proof. intros I F k l l' H H'. apply (F k); auto. Qed.
Lemma perm_tab (V O O' : tab) k l : Permutation O O' -> In (k, l) (V ++ O) -> In (k, l) (V ++ O').
Proof. intros P I. apply in_app_or in I. apply in_or_app. destruct I; auto. right. eapply Permutation_in; eauto. Qed.
Lemma wp_perm {A} V (p : prog A) (Q : tab -> A -> Prop) : (forall O O' a, Permutation O O' -> Q O a -> Q O' a) ->
  forall O O', Permutation O O' -> wp V O p Q -> wp V O' p Q.
Proof.
  intros HQ. induction p as [r|k f IH|l f IH|k p IH|k p IH]; intros O O' P; cbn [wp].
  - intros (a & -> & H). eauto.
  - intros (l & I & H). exists l. split; [eapply perm_tab; eauto|eauto].
  - intros [Ha H]. split; [exact Ha|]. intros k Hk F. apply (IH k ((k, l) :: O)); [constructor; auto|]. apply H; auto. eapply fn_incl; [|exact F].
    intros [k' l'] I. apply (perm_tab V ((k, l) :: O)); auto.
  - intros (l & I & H). exists l. split; [eapply perm_tab; eauto|]. apply (IH ((k, l) :: O)); auto.
  - intros (l & O1 & O2 & -> & H). assert (In (k, l) O') as I by (eapply Permutation_in; [exact P|]; apply in_elt).
    apply in_split in I. destruct I as (O1' & O2' & ->). exists l, O1', O2'. split; auto.
    apply (IH (O1 ++ O2)); auto. eapply Permutation_app_inv; eauto.
Qed.

(** Word [w] with the limbs [l] is the integer [x]; its reference. *)
Definition num (w : Z) (l : list Z) (x : Z) : Prop :=
  wf 64 l /\ canonical l /\ x = signed (Z.odd w) (val 64 l) /\ w <> neg_zero /\ 0 <= w < 2 ^ 64 /\
  (if Z.testbit w 1 then l = [w / 4] else 2 ^ 62 <= val 64 l).
Definition ref (w : Z) (l : list Z) : tab := if Z.testbit w 1 then [] else [(w / 4, l)].

Lemma num_facts w l x : num w l x -> wf 64 l /\ canonical l /\ (0 < length l)%nat /\ val 64 l = Z.abs x /\ Z.odd w = (x <? 0) /\ 0 <= val 64 l.
Proof.
  intros (W & C & E & N & R & D). pose proof (val_nonneg 64 l W) as Hv. split; auto. split; auto.
  split; [destruct C; destruct l; [congruence|cbn; lia]|]. unfold signed in E. split; [destruct (Z.odd w); lia|]. split; auto.
  destruct (Z.odd w) eqn:Ho; symmetry; [apply Z.ltb_lt|apply Z.ltb_ge; lia].
  destruct (Z.eq_dec (val 64 l) 0) as [E0|]; [|lia]. exfalso. destruct (Z.testbit w 1) eqn:Hb; [|lia].
  subst l. cbn [val] in E0. rewrite Z.mul_0_r, Z.add_0_r in E0. apply N. unfold neg_zero.
  pose proof (word_split w ltac:(lia)) as Ws. rewrite E0, tag_of_bits, Hb, Ho in Ws. exact Ws.
Qed.

Ltac tabs := let z := fresh "z" in let Hz := fresh "Hz" in intros z Hz;
  repeat match goal with H : incl _ _ |- _ => specialize (H z) end; cbn [app] in *; rewrite ?in_app_iff in *; cbn [In app] in *; rewrite ?in_app_iff in *; tauto.
Ltac fns := match goal with F : fn ?T |- fn ?T' => eapply (fn_incl T); [clear F; tabs|exact F] end.

Lemma wp_slice V O a l x (Q : tab -> list Z -> Prop) : num a l x -> incl (ref a l) (V ++ O) -> Q O l -> wp V O (p_slice a) Q.
Proof.
  intros (W & C & E & N & R & D) I H. unfold p_slice, ref in *. rewrite is_inline_bit, to_offset_div. destruct (Z.testbit a 1).
  - subst l. cbn [wp pret]. eauto.
  - cbn [wp pret]. exists l. split; [apply I; left; auto|]. eauto.
Qed.
Lemma wp_stop {A} V O (r : res A) a (Q : tab -> A -> Prop) : r = Ok a -> Q O a -> wp V O (PStop r) Q.
Proof. intros -> H. cbn [wp]. eauto. Qed.

Lemma num_inline d neg : 0 <= d <= max_offset -> exists w, new_inline d neg = Ok w /\ num w [d] (signed neg d) /\ ref w [d] = [].
Proof.
  intros Hd. rewrite max_offset_val in Hd. unfold new_inline. rewrite to_new_ok by (rewrite max_offset_val; lia).
  set (t := if negb (d =? 0) && neg then TInlineNeg else TInline). exists (4 * d + tag_usize t). split; auto. unfold num, ref.
  destruct (word_parts d t ltac:(lia)) as (Wd & _ & Wi & Wn). pose proof (tag_usize_range t). rewrite Wd, Wi, Wn.
  assert (tag_inline t = true) as -> by (unfold t; destruct (_ && _); reflexivity). split; auto.
  split; [constructor; [change (Z.of_nat 64) with 64; lia|constructor]|]. split; [split; [discriminate|auto]|].
  split; [cbn [val]; unfold t, signed; destruct (Z.eqb_spec d 0), neg; cbn [negb andb tag_negative]; lia|]. split; [|split; [lia|auto]].
  unfold t, neg_zero. destruct (Z.eqb_spec d 0), neg; cbn [negb andb tag_usize]; lia.
Qed.
Lemma num_intern l (neg : bool) k : wf 64 l -> canonical l -> 2 ^ 62 <= val 64 l -> 0 <= k <= max_offset ->
  exists w, to_new k (if neg then TNeg else TNone) = Ok w /\ num w l (signed neg (val 64 l)) /\ ref w l = [(k, l)].
Proof.
  intros W C B Hk. rewrite to_new_ok by auto. rewrite max_offset_val in Hk. exists (4 * k + tag_usize (if neg then TNeg else TNone)). split; auto.
  set (t := if neg then TNeg else TNone). unfold num, ref.
  destruct (word_parts k t ltac:(lia)) as (Wd & _ & Wi & Wn). pose proof (tag_usize_range t). rewrite Wd, Wi, Wn.
  assert (tag_inline t = false) as Et by (unfold t; destruct neg; reflexivity). rewrite Et. split; [|auto].
  split; auto. split; auto. split; [unfold t; destruct neg; reflexivity|]. split; [|split; [lia|auto]].
  intros X. rewrite X in Wi. rewrite Et in Wi. discriminate Wi.
Qed.
Lemma big_limbs l : wf 64 l -> canonical l -> Nat.eqb (length l) 1 && (zget l 0 <=? max_offset) = false -> 2 ^ 62 <= val 64 l.
Proof.
  intros W C E. apply andb_false_iff in E. destruct E as [E|E].
  - apply Nat.eqb_neq in E. destruct (Z.lt_ge_cases (val 64 l) (2 ^ 64)) as [X|X]; [|lia]. apply (canonical_one l W C) in X. contradiction.
  - apply Z.leb_gt in E. rewrite max_offset_val in E. destruct (Z.lt_ge_cases (val 64 l) (2 ^ 62)) as [X|X]; auto.
    assert (length l = 1%nat) as L by (apply (canonical_one l W C); lia). destruct l as [|d [|? ?]]; try discriminate L.
    change (zget [d] 0) with d in E. cbn [val] in X. lia.
Qed.
Lemma wp_new_slice V O l neg v (Q : tab -> Z -> Prop) : wf 64 l -> l <> [] -> fn (V ++ O) -> v = signed neg (val 64 l) -> light v ->
  (forall c lc, num c lc v -> fn (V ++ ref c lc ++ O) -> Q (ref c lc ++ O) c) -> wp V O (p_new_slice l neg) Q.
Proof.
  intros W N F -> Hl H. destruct (shrink_ok 64 l W) as (l' & E & W' & C' & V').
  { destruct l; [congruence|cbn; lia]. }
  unfold p_new_slice. apply wp_bind, (wp_stop _ _ _ l' _ E). rewrite <- V' in H, Hl.
  destruct (Nat.eqb (length l') 1 && (zget l' 0 <=? max_offset)) eqn:Ei.
  - apply andb_true_iff in Ei. destruct Ei as [E1 E2]. apply Nat.eqb_eq in E1. apply Z.leb_le in E2.
    destruct l' as [|d [|? ?]]; try discriminate E1. change (zget [d] 0) with d in *. assert (0 <= d) by (inversion W'; lia).
    destruct (num_inline d neg ltac:(lia)) as (w & Ew & Nw & Rw). apply (wp_stop _ _ _ w _ Ew).
    specialize (H w [d]). rewrite Rw in H. cbn [val app] in H. rewrite Z.mul_0_r, Z.add_0_r in H. auto.
  - cbn [wp]. split.
    { destruct Hl as [|Hl]; auto. exfalso. pose proof (big_limbs l' W' C' Ei). unfold signed in Hl. destruct neg; lia. }
    intros k Hk Fk. destruct (num_intern l' neg k W' C' (big_limbs l' W' C' Ei) Hk) as (w & Ew & Nw & Rw).
    exists w. split; auto. specialize (H w l' Nw). rewrite Rw in H. cbn [app] in H. auto.
Qed.

Lemma wp_clone V O a l x (Q : tab -> Z -> Prop) : num a l x -> incl (ref a l) (V ++ O) -> Q (ref a l ++ O) a -> wp V O (p_clone a) Q.
Proof.
  intros _ I H. unfold p_clone, ref in *. rewrite is_inline_bit, to_offset_div. destruct (Z.testbit a 1); cbn [wp pret app] in *; [eauto|].
  exists l. split; [apply I; left; auto|]. eauto.
Qed.
Lemma wp_drop V O1 O2 a l x (Q : tab -> unit -> Prop) : num a l x -> Q (O1 ++ O2) tt -> wp V (O1 ++ ref a l ++ O2) (p_drop a) Q.
Proof.
  intros _ H. unfold p_drop, ref in *. rewrite is_inline_bit, to_offset_div. destruct (Z.testbit a 1); cbn [wp pret app] in *; [eauto|].
  exists l, O1, O2. split; eauto.
Qed.

Lemma wp_from dbg V O t v (Q : tab -> Z -> Prop) : std_ty t -> in_range t v = true -> light v -> fn (V ++ O) ->
  (forall c lc, num c lc v -> fn (V ++ ref c lc ++ O) -> Q (ref c lc ++ O) c) -> wp V O (p_from dbg t v) Q.
Proof.
  intros Ht Hv Hl F H. unfold p_from.
  destruct (int_to_arr_spec dbg 64 (arr_size t) (Z.abs v)) as (l & E & Hlen & Hw & Hval); [unfold arr_size; lia|lia|].
  pose proof (in_range_abs t v Ht Hv). pose proof (arr_size_cap t Ht). rewrite Z.mod_small in Hval by lia.
  apply wp_bind, (wp_stop _ _ _ l _ E). apply (wp_new_slice _ _ _ _ v); auto.
  - intros ->. cbn in Hlen. unfold arr_size in Hlen. lia.
  - rewrite Hval. unfold signed. destruct (Z.ltb_spec v 0); [|rewrite andb_false_r; lia].
    destruct (isigned t) eqn:Es; cbn [andb]; [lia|].
    unfold in_range, imin in Hv. rewrite Es in Hv. apply andb_true_iff in Hv. rewrite !Z.leb_le in Hv. lia.
Qed.

(** ** Comparison *)

Lemma compare_limbs la lb x y : wf 64 la -> canonical la -> wf 64 lb -> canonical lb -> val 64 la = Z.abs x -> val 64 lb = Z.abs y ->
  (x < 0 /\ y < 0) \/ (0 <= x /\ 0 <= y) -> cmp_dom x y ->
  Z.compare (Z.abs x) (Z.abs y) = if negb (Nat.eqb (length la) (length lb)) then Nat.compare (length la) (length lb) else low_first la lb.
Proof.
  intros Wa Ca Wb Cb Va Vb Hs Hd.
  pose proof (canonical_len la Wa Ca) as E1. pose proof (canonical_len lb Wb Cb) as E2.
  pose proof (canonical_one la Wa Ca) as O1. pose proof (canonical_one lb Wb Cb) as O2.
  rewrite Va in E1, O1. rewrite Vb in E2, O2.
  destruct (Nat.eqb_spec (length la) (length lb)) as [El|El]; cbn [negb].
  - destruct (Z.eq_dec x y) as [Exy|Exy].
    { assert (la = lb) as -> by (apply (canonical_inj 64); auto; congruence). rewrite low_first_refl, Exy. apply Z.compare_refl. }
    assert (length la = 1%nat /\ length lb = 1%nat) as [A1 A2].
    { destruct Hd as [|[|[|[|[|]]]]]; [contradiction|exfalso; lia|split; [|rewrite <- El]; apply O1; auto
        |split; [rewrite El|]; apply O2; auto|lia|lia]. }
    rewrite <- Va, <- Vb. destruct la as [|u [|? ?]]; try discriminate A1. destruct lb as [|v [|? ?]]; try discriminate A2.
    cbn [val low_first]. rewrite !Z.mul_0_r, !Z.add_0_r. destruct (u ?= v); auto.
  - destruct (Nat.compare_spec (length la) (length lb)) as [E|E|E]; [contradiction| |].
    + apply Z.compare_lt_iff. destruct (Z_lt_ge_dec (Z.abs x) (Z.abs y)) as [|G]; auto. exfalso.
      pose proof (Z.log2_le_mono (Z.abs y) (Z.abs x) ltac:(lia)) as G2. pose proof (Z.div_le_mono _ _ 64 ltac:(lia) G2). lia.
    + apply Z.compare_gt_iff. destruct (Z_lt_ge_dec (Z.abs y) (Z.abs x)) as [|G]; auto. exfalso.
      pose proof (Z.log2_le_mono (Z.abs x) (Z.abs y) ltac:(lia)) as G2. pose proof (Z.div_le_mono _ _ 64 ltac:(lia) G2). lia.
Qed.
Lemma same_word V O a la lb x y : fn (V ++ O) -> num a la x -> num a lb y -> incl (ref a la) (V ++ O) -> incl (ref a lb) (V ++ O) -> x = y.
Proof.
  intros F (_ & _ & E & _ & _ & D) (_ & _ & E' & _ & _ & D') I I'. assert (la = lb) as ->; [|congruence].
  unfold ref in *. destruct (Z.testbit a 1); [congruence|]. apply (F (a / 4)); [apply I|apply I']; left; auto.
Qed.
Lemma wp_cmp V O a b la lb x y (Q : tab -> comparison -> Prop) : fn (V ++ O) -> num a la x -> num b lb y ->
  incl (ref a la) (V ++ O) -> incl (ref b lb) (V ++ O) -> cmp_dom x y -> Q O (x ?= y) -> wp V O (p_cmp a b) Q.
Proof.
  intros F Na Nb Ia Ib Hd H. pose proof (num_facts _ _ _ Na) as (Wa & Ca & La & Va & Oa & _). pose proof (num_facts _ _ _ Nb) as (Wb & Cb & Lb & Vb & Ob & _).
  unfold p_cmp. destruct (Z.eqb_spec a b) as [->|Hne].
  { assert (x = y) as -> by (eapply same_word; [exact F|exact Na|exact Nb|auto|auto]). rewrite Z.compare_refl in H. cbn [wp pret]. eauto. }
  rewrite !is_positive_neg, !is_negative_odd, Oa, Ob.
  pose proof (compare_limbs la lb x y Wa Ca Wb Cb Va Vb) as Hcmp.
  destruct (Z.ltb_spec x 0) as [Xn|Xn]; destruct (Z.ltb_spec y 0) as [Yn|Yn]; cbn [negb andb].
  2: { apply (wp_stop _ _ _ _ _ eq_refl). rewrite (proj2 (Z.compare_lt_iff x y)) in H by lia. exact H. }
  2: { apply (wp_stop _ _ _ _ _ eq_refl). rewrite (proj2 (Z.compare_gt_iff x y)) in H by lia. exact H. }
  all: apply wp_bind, (wp_slice _ _ a la x); auto; apply wp_bind, (wp_slice _ _ b lb y); auto; apply (wp_stop _ _ _ _ _ eq_refl);
    rewrite <- Hcmp by auto.
  - rewrite !Z.abs_neq by lia. rewrite <- Z.compare_antisym, Z.compare_opp. exact H.
  - rewrite !Z.abs_eq by lia. exact H.
Qed.

(** ** Operators *)

Lemma wp_try_usize dbg V O b lb y (Q : tab -> Z + side -> Prop) : adds = true -> fn (V ++ O) -> num b lb y -> incl (ref b lb) (V ++ O) -> 0 <= y < 2 ^ 64 ->
  Q O (inl y) -> wp V O (p_try_from dbg t_usize b) Q.
Proof.
  intros Ha F Nb Ib Hy H. pose proof (num_facts _ _ _ Nb) as (Wb & Cb & Lb & Vb & Ob & _). unfold p_try_from.
  change (imax t_usize) with (2 ^ 64 - 1). change (imin t_usize) with 0.
  apply wp_bind, wp_from; auto; [apply std_usize|left; exact Ha|]. intros m lm Nm Fm.
  apply wp_bind, (wp_cmp _ _ b m lb lm y (2 ^ 64 - 1)); auto; [tabs|tabs|unfold cmp_dom; lia|].
  apply wp_bind, (wp_drop V [] O m lm (2 ^ 64 - 1)); auto. cbn [app].
  assert (forall A (p q : A), match y ?= 2 ^ 64 - 1 with Gt => p | _ => q end = q) as ->.
  { intros A p q. destruct (Z.compare_spec y (2 ^ 64 - 1)); auto. lia. }
  apply wp_bind, wp_from; auto; [apply std_usize|left; exact Ha|]. intros m' lm' Nm' Fm'.
  apply wp_bind, (wp_cmp _ _ b m' lb lm' y 0); auto; [tabs|tabs|unfold cmp_dom; lia|].
  apply wp_bind, (wp_drop V [] O m' lm' 0); auto. cbn [app].
  assert (forall A (p q : A), match y ?= 0 with Lt => p | _ => q end = q) as ->.
  { intros A p q. destruct (Z.compare_spec y 0); auto. lia. }
  apply wp_bind, (wp_slice _ _ b lb y); auto.
  pose proof (arr_to_int_unsigned dbg t_usize lb y std_usize eq_refl Wb Cb ltac:(lia)) as Earr.
  apply wp_bind. eapply wp_stop; [apply Earr|]; [change (imax t_usize) with (2 ^ 64 - 1); lia|]. apply (wp_stop _ _ _ _ _ eq_refl). exact H.
Qed.
Lemma wp_shift_amount dbg V O b lb y (Q : tab -> nat -> Prop) : adds = true -> fn (V ++ O) -> num b lb y -> incl (ref b lb) (V ++ O) -> 0 <= y < 2 ^ 64 ->
  Q O (Z.to_nat y) -> wp V O (p_shift_amount dbg b) Q.
Proof.
  intros Ha F Nb Ib Hy H. unfold p_shift_amount. apply wp_bind, (wp_try_usize _ _ _ b lb y); auto. apply (wp_stop _ _ _ _ _ eq_refl). exact H.
Qed.

Lemma add_result_sum x z (na nb : bool) : na = (x <? 0) -> (z <> 0 -> nb = (z <? 0)) -> add_result na nb x z = bi_sum x z.
Proof.
  intros -> H. unfold add_result, bi_sum. destruct (Z.eq_dec z 0) as [->|Hz].
  - rewrite (proj2 (Z.ltb_ge (Z.abs x) (Z.abs 0))) by lia. rewrite !andb_false_r. reflexivity.
  - rewrite (H Hz). destruct (x <? 0), (z <? 0); reflexivity.
Qed.

Lemma limbs_right dbg o a b la lb x y : num a la x -> num b lb y -> fit_op dbg o x y -> o <> OShl -> o <> OShr ->
  exists out neg, limbs dbg o a b la lb = Ok (out, neg) /\ wf 64 out /\ out <> [] /\ outcome o x y = signed neg (val 64 out).
Proof.
  intros Na Nb H N1 N2. pose proof (num_facts _ _ _ Na) as (Wa & Ca & La & Va & Oa & Pa). pose proof (num_facts _ _ _ Nb) as (Wb & Cb & Lb & Vb & Ob & Pb).
  assert (x = signed (Z.odd a) (val 64 la)) as Ex by apply Na. assert (y = signed (Z.odd b) (val 64 lb)) as Ey by apply Nb.
  destruct (elem_add_spec 64 la lb ltac:(lia) Wa Wb) as (s & Es & Ws & Cs & Vs).
  destruct (elem_sub_spec 64 la lb ltac:(lia) Wa Wb ltac:(lia)) as (d & Ed & Wd & Cd & Vd).
  assert (forall op bop, (forall a b, 0 <= a < base 64 -> 0 <= b < base 64 -> 0 <= op a b < base 64) ->
    (forall a b n, Z.testbit (op a b) n = bop (Z.testbit a n) (Z.testbit b n)) -> bop false false = false ->
    exists out neg, Ok (elem_bitop op la lb, is_negative a) = Ok (out, neg) /\ wf 64 out /\ out <> [] /\ on_magnitudes op x y = signed neg (val 64 out)) as HB.
  { intros op bop R T F. destruct (bitop_val op bop la lb Wa Wb R T F) as [W V]. exists (elem_bitop op la lb), (is_negative a).
    split; auto. split; auto. split; [apply bitop_ne; intros ->; cbn in La; lia|]. rewrite is_negative_odd, Oa.
    rewrite V, Va, Vb. unfold signed, on_magnitudes. destruct (x <? 0); lia. }
  unfold limbs, is_positive. fold (is_negative a) (is_negative b). destruct o; cbn [outcome meaning fit_op right_op] in *; try congruence.
  - rewrite <- (add_result_sum x y (Z.odd a) (Z.odd b) Oa) by (intros _; exact Ob).
    pose proof (fun H => signed_magnitude_add (Z.odd a) (Z.odd b) (val 64 la) (val 64 lb) Pa Pb H) as HA. rewrite <- Ex, <- Ey in HA.
    rewrite !is_negative_odd. destruct (Z.odd a), (Z.odd b); cbn [negb].
    + rewrite Es. cbn [bind]. exists s, true. split; auto. split; auto. split; [apply canonical_ne; auto|]. rewrite add_result_same. unfold signed in *. lia.
    + rewrite Ed. cbn [bind]. exists d, (negb (val 64 la <? val 64 lb)). split; auto. split; auto. split; [apply canonical_ne; auto|]. rewrite <- HA, Vd by congruence. auto.
    + rewrite Ed. exists d, (val 64 la <? val 64 lb). split; auto. split; auto. split; [apply canonical_ne; auto|]. rewrite <- HA, Vd by congruence. auto.
    + rewrite Es. cbn [bind]. exists s, false. split; auto. split; auto. split; [apply canonical_ne; auto|]. rewrite add_result_same. unfold signed in *. lia.
  - unfold bi_diff.
    rewrite <- (add_result_sum x (- y) (Z.odd a) (negb (Z.odd b)) Oa) by (intros Hz; rewrite Ob; destruct (Z.ltb_spec y 0), (Z.ltb_spec (- y) 0); cbn [negb]; auto; lia).
    pose proof (fun H => signed_magnitude_add (Z.odd a) (negb (Z.odd b)) (val 64 la) (val 64 lb) Pa Pb H) as HA. rewrite <- Ex in HA.
    assert (signed (negb (Z.odd b)) (val 64 lb) = - y) as Ey' by (rewrite Ey; unfold signed; destruct (Z.odd b); cbn [negb]; lia). rewrite Ey' in HA.
    rewrite !is_negative_odd. destruct (Z.odd a), (Z.odd b); cbn [negb] in *.
    + rewrite Ed. cbn [bind]. exists d, (negb (val 64 la <? val 64 lb)). split; auto. split; auto. split; [apply canonical_ne; auto|]. rewrite <- HA, Vd by congruence. auto.
    + rewrite Es. cbn [bind]. exists s, true. split; auto. split; auto. split; [apply canonical_ne; auto|]. rewrite add_result_same. unfold signed in *. lia.
    + rewrite Es. cbn [bind]. exists s, false. split; auto. split; auto. split; [apply canonical_ne; auto|]. rewrite add_result_same. unfold signed in *. lia.
    + rewrite Ed. exists d, (val 64 la <? val 64 lb). split; auto. split; auto. split; [apply canonical_ne; auto|]. rewrite <- HA, Vd by congruence. auto.
  - destruct (elem_mul_spec 64 la lb ltac:(lia) Wa Wb ltac:(lia)) as (p & Ep & Wp & Cp & Vp). rewrite Ep. cbn [bind]. rewrite !is_negative_odd.
    exists p, (negb (Bool.eqb (Z.odd a) (Z.odd b))). split; auto. split; auto. split; [apply canonical_ne; auto|]. rewrite Vp, Ex, Ey. unfold signed.
    destruct (Z.odd a), (Z.odd b); cbn [Bool.eqb negb]; lia.
  - destruct (div_rem_slices dbg la lb x y Wa Ca Wb Cb Va Vb H) as (q & r & E & Wq & Wr & Nq & Nr & Vq & Vr). rewrite E. cbn [bind]. rewrite !is_negative_odd, Oa, Ob.
    exists q, (negb (Bool.eqb (x <? 0) (y <? 0))). split; auto. split; auto. split; auto. rewrite Vq. destruct H as [Hy0 _]. rewrite (Z.quot_div x y) by auto. unfold signed.
    destruct (Z.eq_dec x 0) as [E0|E0].
    + rewrite E0. change (Z.abs 0) with 0. rewrite Zdiv_0_l. lia.
    + destruct (Z.ltb_spec x 0), (Z.ltb_spec y 0); cbn [Bool.eqb negb];
        rewrite ?(Z.sgn_pos x), ?(Z.sgn_neg x), ?(Z.sgn_pos y), ?(Z.sgn_neg y) by lia; lia.
  - destruct (div_rem_slices dbg la lb x y Wa Ca Wb Cb Va Vb H) as (q & r & E & Wq & Wr & Nq & Nr & Vq & Vr). rewrite E. cbn [bind]. rewrite !is_negative_odd, Oa, Ob.
    exists r, (negb (Bool.eqb (x <? 0) (y <? 0))). split; auto. split; auto. split; auto. rewrite Vr. destruct H as [Hy0 _]. rewrite (Z.rem_mod x y) by auto. unfold signed.
    destruct (Z.eq_dec x 0) as [E0|E0].
    + rewrite E0. change (Z.abs 0) with 0. rewrite Zmod_0_l. lia.
    + destruct (Z.ltb_spec x 0), (Z.ltb_spec y 0); cbn [Bool.eqb negb]; rewrite ?(Z.sgn_pos x), ?(Z.sgn_neg x), ?(Z.sgn_pos y), ?(Z.sgn_neg y) by lia; lia.
  - apply (HB Z.land andb); try tauto; [intros; apply land_range; auto|intros; apply Z.land_spec].
  - apply (HB Z.lor orb); try tauto; [intros; apply lor_range; auto|intros; apply Z.lor_spec].
  - apply (HB Z.lxor xorb); try tauto; [intros; apply lxor_range; auto|intros; apply Z.lxor_spec].
Qed.

Lemma wp_operate dbg V O o a b la lb x y (Q : tab -> Z -> Prop) : fn (V ++ O) -> num a la x -> num b lb y ->
  incl (ref a la) (V ++ O) -> incl (ref b lb) (V ++ O) -> fit_op dbg o x y -> light_op o x y ->
  (forall c lc, num c lc (outcome o x y) -> fn (V ++ ref c lc ++ O) -> Q (ref c lc ++ O) c) -> wp V O (p_operate dbg o a b) Q.
Proof.
  intros F Na Nb Ia Ib Hop Hl H. unfold p_operate. apply wp_bind, (wp_slice _ _ a la x); auto. apply wp_bind, (wp_slice _ _ b lb y); auto.
  pose proof (num_facts _ _ _ Na) as (Wa & Ca & La & Va & Oa & Pa).
  assert (x = signed (Z.odd a) (val 64 la)) as Ex by apply Na.
  pose proof (limbs_right dbg o a b la lb x y Na Nb Hop) as HL.
  destruct o; cbn [outcome meaning] in *.
  1-5, 8-10: destruct HL as (out & neg & E & W & N & E'); try discriminate; apply wp_bind, (wp_stop _ _ _ _ _ E);
    apply (wp_new_slice _ _ _ _ _ _ W N F E'); [destruct Hl as [Hl|(_ & _ & Hl)]; [left|right]; exact Hl|exact H].
  all: assert (adds = true) as Ha by (destruct Hl as [|(X & Y & _)]; [auto|elim X; reflexivity || (elim Y; reflexivity)]).
  - cbn [fit_op right_op] in Hop. apply wp_bind, (wp_shift_amount _ _ _ b lb y); auto.
    destruct (elem_shl_spec 64 (Z.to_nat y) ltac:(lia) la Wa) as (out & Eo & Wo & Co & Vo). rewrite Z2Nat.id in Vo by lia.
    apply wp_bind, (wp_stop _ _ _ _ _ Eo). eapply wp_new_slice; [exact Wo|apply canonical_ne; auto|exact F| |left; exact Ha|exact H].
    rewrite is_negative_odd, Vo, Ex at 1. unfold signed. lia.
  - cbn [fit_op right_op] in Hop. destruct Hop as [Hy Hdbg]. apply wp_bind, (wp_shift_amount _ _ _ b lb y); auto.
    destruct (elem_shr_spec 64 (Z.to_nat y) ltac:(lia) dbg la Wa La) as (out & Eo & Wo & Co & Vo).
    { destruct Hdbg as [|Hdbg]; [auto|right]. apply Nat.div_small. lia. }
    rewrite Z2Nat.id in Vo by lia.
    apply wp_bind, (wp_stop _ _ _ _ _ Eo). eapply wp_new_slice; [exact Wo|apply canonical_ne; auto|exact F| |left; exact Ha|exact H].
    unfold signed in *. rewrite is_negative_odd, Vo.
    assert (0 < 2 ^ y) by (apply Z.pow_pos_nonneg; lia). rewrite <- Z.quot_div_nonneg by lia. rewrite Ex. destruct (Z.odd a).
    + rewrite !(Z.mul_comm (-1)), <- !Z.opp_eq_mul_m1. rewrite Z.quot_opp_l by lia. auto.
    + rewrite !Z.mul_1_l. auto.
Qed.

Lemma wp_by_val dbg V O1 O2 o a b la lb x y (Q : tab -> Z -> Prop) : fn (V ++ ref b lb ++ O1 ++ ref a la ++ O2) -> num a la x -> num b lb y -> fit_op dbg o x y -> light_op o x y ->
  (forall c lc, num c lc (outcome o x y) -> fn (V ++ ref c lc ++ O1 ++ O2) -> Q (ref c lc ++ O1 ++ O2) c) ->
  wp V (ref b lb ++ O1 ++ ref a la ++ O2) (p_by_val (p_operate dbg o) a b) Q.
Proof.
  intros F Na Nb Hop Hl H. unfold p_by_val. apply wp_bind, (wp_operate _ _ _ _ a b la lb x y); auto; [tabs|tabs|]. intros c lc Nc Fc.
  apply wp_bind, (wp_drop V (ref c lc) (O1 ++ ref a la ++ O2) b lb y); auto. rewrite app_assoc.
  apply wp_bind, (wp_drop V (ref c lc ++ O1) O2 a la x); auto. apply (wp_stop _ _ _ _ _ eq_refl). rewrite <- app_assoc. apply H; auto. fns.
Qed.
Lemma wp_op_int dbg V O1 O2 o t a la x v (Q : tab -> Z -> Prop) : fn (V ++ O1 ++ ref a la ++ O2) -> num a la x -> std_ty t -> in_range t v = true -> light v -> fit_op dbg o x v -> light_op o x v ->
  (forall c lc, num c lc (outcome o x v) -> fn (V ++ ref c lc ++ O1 ++ O2) -> Q (ref c lc ++ O1 ++ O2) c) ->
  wp V (O1 ++ ref a la ++ O2) (p_op_int dbg (p_operate dbg o) t a v) Q.
Proof.
  intros F Na Ht Hv Hlv Hop Hl H. unfold p_op_int. apply wp_bind, wp_from; auto. intros b lb Nb Fb. apply (wp_by_val dbg V O1 O2 o a b la lb x v); auto.
Qed.
Lemma wp_cmp_int dbg V O t a la x v (Q : tab -> comparison -> Prop) : fn (V ++ O) -> num a la x -> incl (ref a la) (V ++ O) -> std_ty t -> in_range t v = true -> light v -> cmp_dom x v ->
  Q O (x ?= v) -> wp V O (p_cmp_int dbg t a v) Q.
Proof.
  intros F Na Ia Ht Hv Hl Hd H. unfold p_cmp_int. apply wp_bind, wp_from; auto. intros b lb Nb Fb.
  apply wp_bind, (wp_cmp _ _ a b la lb x v); auto; [tabs|tabs|].
  apply wp_bind, (wp_drop V [] O b lb v); auto. apply (wp_stop _ _ _ _ _ eq_refl). exact H.
Qed.

(** ** Powers and expressions *)

Lemma wp_eq_zero dbg V O a la x (Q : tab -> bool -> Prop) : num a la x -> incl (ref a la) (V ++ O) -> 0 <= x -> Q O (x =? 0) -> wp V O (p_eq_i32 dbg a 0) Q.
Proof.
  intros Na Ia Hx H. pose proof (num_facts _ _ _ Na) as (Wa & Ca & La & Va & Oa & Pa).
  unfold p_eq_i32. rewrite is_negative_odd, Oa, (proj2 (Z.ltb_ge x 0)) by auto. change (Bool.eqb false (0 <? 0)) with true. cbn [negb].
  apply wp_bind, (wp_stop _ _ _ 0 _ eq_refl). apply wp_bind, (wp_slice _ _ a la x); auto.
  destruct (int_to_arr_spec dbg 64 (arr_size t_i32) (0 mod 2 ^ Z.of_nat (ibits t_i32))) as (l & E & Hlen & Hw & Hval); [unfold arr_size; lia|rewrite Zmod_0_l; lia|].
  apply wp_bind, (wp_stop _ _ _ l _ E). rewrite !Zmod_0_l in Hval.
  destruct (shrink_ok 64 l Hw) as (l' & E' & W' & C' & V'); [rewrite Hlen; vm_compute; lia|].
  apply wp_bind, (wp_stop _ _ _ l' _ E'). apply (wp_stop _ _ _ _ _ eq_refl).
  replace (list_eqb la l') with (x =? 0); [exact H|]. apply eq_true_iff_eq. rewrite list_eqb_ok, Z.eqb_eq. split.
  - intros ->. apply (canonical_inj 64); auto. rewrite V', Hval, Va. reflexivity.
  - intros ->. lia.
Qed.

Lemma wp_pow_loop dbg V O self ls x : num self ls x ->
  forall n fuel out rhs lo lr y z (Q : tab -> Z * Z -> Prop), 0 < y -> (Z.to_nat y <= n)%nat -> (n <= fuel)%nat ->
  num rhs lr y -> num out lo z -> (adds = true \/ y < 2 ^ 62 /\ forall k, 0 <= k <= y - 1 -> Z.abs (z * x ^ k) < 2 ^ 62) -> fn (V ++ ref rhs lr ++ ref out lo ++ ref self ls ++ O) ->
  (forall rhs' out' lr' lo', num rhs' lr' 1 -> num out' lo' (z * x ^ (y - 1)) -> fn (V ++ ref rhs' lr' ++ ref out' lo' ++ ref self ls ++ O) ->
     Q (ref rhs' lr' ++ ref out' lo' ++ ref self ls ++ O) (rhs', out')) ->
  wp V (ref rhs lr ++ ref out lo ++ ref self ls ++ O) (p_pow_loop dbg fuel self rhs out) Q.
Proof.
  intros Ns. induction n as [|n IH]; intros fuel out rhs lo lr y z Q Hy Hn Hf Nr No Hl F H; [lia|].
  destruct fuel as [|fuel]; [lia|]. cbn [p_pow_loop].
  apply wp_bind, (wp_cmp_int _ _ _ _ rhs lr y 1); auto; [tabs|apply std_i32|right; vm_compute; reflexivity|unfold cmp_dom; lia|].
  destruct (Z.compare_spec y 1) as [Ey|Ey|Ey]; [|lia|].
  - subst y. apply (wp_stop _ _ _ _ _ eq_refl). apply H; auto. rewrite Z.sub_diag, Z.pow_0_r, Z.mul_1_r. exact No.
  - apply wp_bind, (wp_clone _ _ self ls x); auto; [tabs|].
    apply wp_bind, (wp_by_val dbg V (ref rhs lr) (ref self ls ++ O) OMul out self lo ls z x); auto; [fns|exact I| |].
    { destruct Hl as [|[_ Hl]]; [left; auto|right]. split; [discriminate|]. split; [discriminate|]. cbn [outcome meaning]. specialize (Hl 1 ltac:(lia)). rewrite Z.pow_1_r in Hl. exact Hl. } intros out' lo' No' Fo'.
    apply wp_bind, (wp_op_int dbg V (ref out' lo') (ref self ls ++ O) OSub t_i32 rhs lr y 1); auto; [apply std_i32|right; vm_compute; reflexivity|exact I| |].
    { destruct Hl as [|[Hl _]]; [left; auto|right]. split; [discriminate|]. split; [discriminate|]. cbn [outcome meaning]. unfold bi_diff.
      destruct (exact_sum y (Z.opp 1)) as [[_ Es]|[Es _]]; [rewrite Es; lia|exfalso; apply Es; unfold add_exact; lia]. }
    intros rhs' lr' Nr' Fr'. cbn [outcome meaning] in *. unfold bi_diff in Nr'. destruct (exact_sum y (Z.opp 1)) as [[_ Es]|[Es _]]; [rewrite Es in Nr'|exfalso; apply Es; unfold add_exact; lia]. apply (IH fuel out' rhs' lo' lr' (y - 1) (z * x)); auto; try lia.
    { destruct Hl as [|[Hl1 Hl]]; [auto|right]. split; [lia|]. intros k Hk. specialize (Hl (Z.succ k) ltac:(lia)). rewrite Z.pow_succ_r in Hl by lia. rewrite <- Z.mul_assoc. exact Hl. }
    intros rhs2 out2 lr2 lo2 N2 N2' F2. apply H; auto.
    replace (z * x ^ (y - 1)) with (z * x * x ^ (y - 1 - 1)); auto.
    replace (y - 1) with (Z.succ (y - 1 - 1)) at 2 by lia. rewrite Z.pow_succ_r by lia. lia.
Qed.

Lemma pow_grows x j y : 0 < j <= y -> Z.abs (x ^ y) < 2 ^ 62 -> Z.abs (x ^ j) < 2 ^ 62.
Proof.
  intros Hj H. destruct (Z.eq_dec x 0) as [->|Hx]; [rewrite Z.pow_0_l by lia; reflexivity|].
  apply (Z.le_lt_trans _ (Z.abs (x ^ y))); auto. rewrite !Z.abs_pow. apply Z.pow_le_mono_r; lia.
Qed.
Lemma wp_pow dbg V O fuel a b la lb x y (Q : tab -> Z -> Prop) : (forall O O' a, Permutation O O' -> Q O a -> Q O' a) ->
  fn (V ++ ref b lb ++ ref a la ++ O) -> num a la x -> num b lb y -> 0 <= y <= Z.of_nat fuel -> (adds = true \/ y < 2 ^ 62 /\ Z.abs (x ^ y) < 2 ^ 62) ->
  (forall c lc, num c lc (x ^ y) -> fn (V ++ ref c lc ++ O) -> Q (ref c lc ++ O) c) ->
  wp V (ref b lb ++ ref a la ++ O) (p_pow dbg fuel a b) Q.
Proof.
  intros HQ F Na Nb Hy Hl H. unfold p_pow. apply wp_bind, (wp_eq_zero _ _ _ b lb y); auto; [tabs|lia|].
  destruct (Z.eqb_spec y 0) as [->|Hne].
  - apply wp_bind, wp_from; auto; [apply std_i32|right; vm_compute; reflexivity|]. intros c lc Nc Fc.
    apply wp_bind, (wp_drop V (ref c lc) (ref a la ++ O) b lb 0); auto. apply wp_bind, (wp_drop V (ref c lc) O a la x); auto.
    apply (wp_stop _ _ _ _ _ eq_refl). apply H; auto. fns.
  - apply wp_bind, (wp_clone _ _ a la x); auto; [tabs|]. apply wp_bind.
    eapply wp_perm; [intros O1 O2 [rhs out] P; apply wp_perm; [exact HQ|exact P]|apply Permutation_app_swap_app|].
    apply (wp_pow_loop dbg V O a la x Na (Z.to_nat y) fuel a b la lb y x); auto; try lia.
    { destruct Hl as [|[Hl1 Hl]]; [auto|right]. split; [exact Hl1|]. intros k Hk. rewrite <- Z.pow_succ_r by lia. apply (pow_grows x _ y); lia. }
    { fns. }
    intros rhs out lr lo Nr No Fo.
    apply wp_bind, (wp_drop V [] (ref out lo ++ ref a la ++ O) rhs lr 1); auto. cbn [app].
    apply wp_bind, (wp_drop V (ref out lo) O a la x); auto. apply (wp_stop _ _ _ _ _ eq_refl). apply H; auto; [|fns].
    replace (x ^ y) with (x * x ^ (y - 1)); auto. replace y with (Z.succ (y - 1)) at 2 by lia. rewrite Z.pow_succ_r by lia. lia.
Qed.

Lemma num_neg a l x : num a l x -> x <> 0 -> num (bi_neg a) l (- x) /\ ref (bi_neg a) l = ref a l.
Proof.
  intros (W & C & E & N & R & D) Hx. unfold bi_neg. destruct (invert_neg_parts a ltac:(lia)) as (P1 & P2 & P3 & P4).
  unfold num, ref. rewrite P2, P3, P4. split; [|reflexivity]. split; auto. split; auto.
  split; [rewrite E; unfold signed; destruct (Z.odd a); cbn [negb]; lia|]. split; [|split; [|auto]].
  - intros X. rewrite X in P2, P3. unfold neg_zero in P2, P3. change (3 / 4) with 0 in P2. change (Z.testbit 3 1) with true in P3.
    rewrite <- P3 in D. subst l. cbn [val] in E. unfold signed in E. destruct (Z.odd a); lia.
  - split; auto. apply (Z.lt_le_trans _ (4 * (a / 4) + 4)); [rewrite <- P2|]; pose proof (Z.div_mod (invert_neg a) 4 ltac:(lia)); pose proof (Z.mod_pos_bound (invert_neg a) 4 ltac:(lia)); [lia|].
    assert (a / 4 < 2 ^ 62) by (apply Z.div_lt_upper_bound; lia). lia.
Qed.

Lemma wp_eval dbg fuel V vars xs : (forall i, (i < length xs)%nat -> exists l, num (nth i vars 0) l (nth i xs 0) /\ incl (ref (nth i vars 0) l) V) ->
  forall e O (Q : tab -> Z -> Prop), (forall O O' a, Permutation O O' -> Q O a -> Q O' a) ->
  everywhere_with outcome (fit_op dbg) (fun _ y => 0 <= y <= Z.of_nat fuel) (fun x => x <> 0) xs e -> (adds = true \/ modest xs e) -> fn (V ++ O) ->
  (forall c lc, num c lc (value_with outcome xs e) -> fn (V ++ ref c lc ++ O) -> Q (ref c lc ++ O) c) ->
  wp V O (p_eval dbg fuel vars e) Q.
Proof.
  intros HV. induction e as [t v|i|o i j|o e IHe j|o i e IHe|o e IHe f IHf|o e IHe t v|e IHe f IHf|e IHe];
    intros O Q HQ H Hl F HC; cbn [p_eval everywhere_with value_with modest] in *;
    repeat match goal with Hl : adds = true \/ ?A /\ ?B |- _ => assert (adds = true \/ A) by tauto; assert (adds = true \/ B) by tauto; clear Hl end;
    repeat match goal with Hl : adds = true \/ modest_op ?o ?x ?y |- _ => change (light_op o x y) in Hl | Hl : adds = true \/ Z.abs ?v < _ |- _ => change (light v) in Hl end.
  - destruct H as [Ht Hv]. apply wp_from; auto.
  - destruct (HV i H) as (l & N & I). apply (wp_clone _ _ _ l (nth i xs 0)); auto. tabs. apply HC; auto. fns.
  - destruct H as (Hi & Hj & Ho). destruct (HV i Hi) as (l & N & I). destruct (HV j Hj) as (l' & N' & I').
    apply (wp_operate dbg V O o _ _ l l' (nth i xs 0) (nth j xs 0)); auto; tabs.
  - destruct H as (He & Hj & Ho). destruct (HV j Hj) as (l' & N' & I').
    apply wp_bind, IHe; auto; [intros ? ? ? P; apply wp_perm; auto|]. intros a la Na Fa. unfold p_by_val_ref.
    apply wp_bind, (wp_operate dbg V _ o _ _ la l' (value_with outcome xs e) (nth j xs 0)); auto; [tabs|tabs|]. intros c lc Nc Fc.
    apply wp_bind, (wp_drop V (ref c lc) O a la (value_with outcome xs e)); auto. apply (wp_stop _ _ _ _ _ eq_refl). apply HC; auto. fns.
  - destruct H as (Hi & He & Ho). destruct (HV i Hi) as (l' & N' & I').
    apply wp_bind, IHe; auto; [intros ? ? ? P; apply wp_perm; auto|]. intros b lb Nb Fb. unfold p_by_ref_val.
    apply wp_bind, (wp_operate dbg V _ o _ _ l' lb (nth i xs 0) (value_with outcome xs e)); auto; [tabs|tabs|]. intros c lc Nc Fc.
    apply wp_bind, (wp_drop V (ref c lc) O b lb (value_with outcome xs e)); auto. apply (wp_stop _ _ _ _ _ eq_refl). apply HC; auto. fns.
  - destruct H as (He & Hf & Ho).
    apply wp_bind, IHe; auto; [intros ? ? ? P; apply wp_perm; auto; intros ? ? ? P'; apply wp_perm; auto|]. intros a la Na Fa.
    apply wp_bind, IHf; auto; [intros ? ? ? P; apply wp_perm; auto|]. intros b lb Nb Fb.
    apply (wp_by_val dbg V [] O o a b la lb (value_with outcome xs e) (value_with outcome xs f)); auto.
  - destruct H as (He & (Ht & Hv) & Ho).
    apply wp_bind, IHe; auto; [intros ? ? ? P; apply wp_perm; auto|]. intros a la Na Fa.
    apply (wp_op_int dbg V [] O o t a la (value_with outcome xs e) v); auto.
  - destruct H as (He & Hf & Ho).
    apply wp_bind, IHe; auto; [intros ? ? ? P; apply wp_perm; auto; intros ? ? ? P'; apply wp_perm; auto|]. intros a la Na Fa.
    apply wp_bind, IHf; auto; [intros ? ? ? P; apply wp_perm; auto|]. intros b lb Nb Fb.
    apply (wp_pow dbg V O fuel a b la lb (value_with outcome xs e) (value_with outcome xs f)); auto. unfold light in *. tauto.
  - destruct H as (He & Hn).
    apply wp_bind, IHe; auto; [intros ? ? ? P; apply wp_perm; auto|]. intros a la Na Fa.
    destruct (num_neg a la (value_with outcome xs e) Na Hn) as [Nn En]. apply (wp_stop _ _ _ _ _ eq_refl). rewrite <- En. apply HC; auto. rewrite En. exact Fa.
Qed.
End Wp.
