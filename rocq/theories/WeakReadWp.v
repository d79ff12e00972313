(** The questions of WeakReadModel.v, asked by a thread among others that never call [add]: the right answers. *)
From Coq Require Import ZArith List Bool Lia Permutation.
From Verif Require Import Base Words Spec TextSpec Arith BitSliceModel BitSliceProofs ElementModel BitwiseModel ElemAddSub ElemMul ElemShift BitwiseProofs
  InternModel InternProofs BigIntModel BigIntSpec BigIntProofs BigIntOps BigIntConv BigIntMore BigIntText BigIntSafe BigIntRun PropBigInt BigIntExprModel PropBigIntExpr
  BigIntOrder BigIntI128 PropBigInt2 ConcArithModel ConcArithWp PropConcArith WeakReadModel WeakReadSpec.
Import ListNotations.
Local Open Scope Z_scope.

Ltac tabs := let z := fresh "z" in let Hz := fresh "Hz" in intros z Hz;
  repeat match goal with H : incl _ _ |- _ => specialize (H z) end; cbn [app] in *; rewrite ?in_app_iff in *; cbn [In app] in *; rewrite ?in_app_iff in *; tauto.
Ltac fns := match goal with F : fn ?T |- fn ?T' => eapply (fn_incl T); [clear F; tabs|exact F] end.
Notation wq := (wp false).

(** ** Comparison *)

Lemma compares_gcmp la lb x y : wf 64 la -> canonical la -> wf 64 lb -> canonical lb -> val 64 la = Z.abs x -> val 64 lb = Z.abs y ->
  compares x y (gcmp (x <? 0) la (y <? 0) lb).
Proof.
  intros Wa Ca Wb Cb Va Vb. pose proof (compare_limbs la lb x y Wa Ca Wb Cb Va Vb) as HC. fold (mcmp la lb) in HC. split; [|split].
  - rewrite gcmp_eq. split.
    + intros [S ->]. rewrite Va in Vb. destruct (Z.ltb_spec x 0), (Z.ltb_spec y 0); try discriminate; lia.
    + intros ->. split; auto. apply (canonical_inj 64); auto. congruence.
  - intros H. destruct (Z.ltb_spec x 0) as [Hx|Hx], (Z.ltb_spec y 0) as [Hy|Hy]; cbn [gcmp].
    + rewrite <- HC by (unfold cmp_dom; tauto || lia). rewrite !Z.abs_neq by lia. rewrite <- Z.compare_antisym, Z.compare_opp. reflexivity.
    + symmetry. apply Z.compare_lt_iff. lia.
    + symmetry. apply Z.compare_gt_iff. lia.
    + rewrite <- HC by (unfold cmp_dom; tauto || lia). rewrite !Z.abs_eq by lia. reflexivity.
  - intros Hs Hl. assert (length la = length lb) as El.
    { pose proof (canonical_len la Wa Ca). pose proof (canonical_len lb Wb Cb). rewrite Va in *. rewrite Vb in *. lia. }
    rewrite <- Va, <- Vb, <- low_first_lt by auto.
    assert (mcmp la lb = low_first la lb) as Em by (unfold mcmp; rewrite El, Nat.eqb_refl; auto).
    destruct (Z.ltb_spec x 0), (Z.ltb_spec y 0); try lia; cbn [gcmp]; rewrite Em; destruct (low_first la lb); cbn; split; congruence.
Qed.

Lemma wq_cmp V O a b la lb x y (Q : tab -> comparison -> Prop) : fn (V ++ O) -> num a la x -> num b lb y ->
  incl (ref a la) (V ++ O) -> incl (ref b lb) (V ++ O) -> (forall c, compares x y c -> Q O c) -> wq V O (p_cmp a b) Q.
Proof.
  intros F Na Nb Ia Ib H. pose proof (num_facts _ _ _ Na) as (Wa & Ca & La & Va & Oa & _). pose proof (num_facts _ _ _ Nb) as (Wb & Cb & Lb & Vb & Ob & _).
  pose proof (compares_gcmp la lb x y Wa Ca Wb Cb Va Vb) as HG.
  unfold p_cmp. destruct (Z.eqb_spec a b) as [->|Hne].
  { assert (x = y) as -> by (eapply same_word; [exact F|exact Na|exact Nb|auto|auto]). assert (la = lb) as -> by (apply (canonical_inj 64); auto; congruence).
    rewrite (proj2 (gcmp_eq _ _ _ _)) in HG by auto. apply (wp_stop _ _ _ _ _ _ eq_refl). auto. }
  rewrite !is_positive_neg, !is_negative_odd, Oa, Ob.
  destruct (Z.ltb_spec x 0) as [Xn|Xn]; destruct (Z.ltb_spec y 0) as [Yn|Yn]; cbn [negb andb gcmp] in *.
  2, 3: apply (wp_stop _ _ _ _ _ _ eq_refl); auto.
  all: apply wp_bind, (wp_slice _ _ _ a la x); auto; apply wp_bind, (wp_slice _ _ _ b lb y); auto; apply (wp_stop _ _ _ _ _ _ eq_refl); apply H; exact HG.
Qed.

(** ** Equality *)

Lemma wq_eq V O a b la lb x y (Q : tab -> bool -> Prop) : fn (V ++ O) -> num a la x -> num b lb y ->
  incl (ref a la) (V ++ O) -> incl (ref b lb) (V ++ O) -> Q O (x =? y) -> wq V O (p_eq a b) Q.
Proof.
  intros F Na Nb Ia Ib H. pose proof (num_facts _ _ _ Na) as (Wa & Ca & La & Va & Oa & _). pose proof (num_facts _ _ _ Nb) as (Wb & Cb & Lb & Vb & Ob & _).
  unfold p_eq. destruct (Z.eqb_spec a b) as [->|Hne].
  { assert (x = y) as -> by (eapply same_word; [exact F|exact Na|exact Nb|auto|auto]). rewrite Z.eqb_refl in H. apply (wp_stop _ _ _ _ _ _ eq_refl). auto. }
  assert (Z.testbit a 1 = Z.testbit b 1 -> Z.odd a = Z.odd b -> Z.testbit a 1 = false -> list_eqb la lb = (x =? y)) as E1.
  { intros _ Eo _. apply eq_true_iff_eq. rewrite list_eqb_ok, Z.eqb_eq. split.
    - intros ->. rewrite Oa, Ob in Eo. rewrite Va in Vb. destruct (Z.ltb_spec x 0), (Z.ltb_spec y 0); try discriminate; lia.
    - intros ->. apply (canonical_inj 64); auto. congruence. }
  assert (x = y -> Z.testbit a 1 = Z.testbit b 1 /\ Z.odd a = Z.odd b /\ Z.testbit a 1 = false) as E2.
  { intros E. destruct Na as (_ & _ & _ & _ & Ra & Da), Nb as (_ & _ & _ & _ & Rb & Db). rewrite <- E in Ob, Vb.
    assert (la = lb) as El by (apply (canonical_inj 64); auto; congruence). rewrite <- El in Db. rewrite Oa, Ob.
    pose proof (word_split a ltac:(lia)) as Wsa. pose proof (word_split b ltac:(lia)) as Wsb. rewrite tag_of_bits in Wsa, Wsb.
    assert (a / 4 < 2 ^ 62) by (apply Z.div_lt_upper_bound; lia). assert (b / 4 < 2 ^ 62) by (apply Z.div_lt_upper_bound; lia).
    destruct (Z.testbit a 1), (Z.testbit b 1); auto.
    - exfalso. apply Hne. rewrite Da in Db. injection Db as Db. rewrite Wsa, Wsb, Db, Oa, Ob. reflexivity.
    - exfalso. rewrite Da in Db. cbn [val] in Db. lia.
    - exfalso. rewrite Db in Da. cbn [val] in Da. lia. }
  rewrite !tag_of_bits. destruct (Z.testbit a 1) eqn:Ta.
  { assert (x =? y = false) as E by (apply Z.eqb_neq; intros E; apply E2 in E; destruct E as (_ & _ & E); discriminate). rewrite E in H.
    replace (_ && _) with false by (destruct (Z.odd a); cbn; rewrite andb_false_r; reflexivity). apply (wp_stop _ _ _ _ _ _ eq_refl). auto. }
  destruct (Z.testbit b 1) eqn:Tb.
  { assert (x =? y = false) as E by (apply Z.eqb_neq; intros E; apply E2 in E; destruct E as (E & _); discriminate). rewrite E in H.
    replace (_ && _) with false by (destruct (Z.odd a), (Z.odd b); reflexivity). apply (wp_stop _ _ _ _ _ _ eq_refl). auto. }
  destruct (Bool.eqb (Z.odd a) (Z.odd b)) eqn:Eo.
  - apply Bool.eqb_prop in Eo. rewrite <- Eo. replace (_ && _) with true by (destruct (Z.odd a); reflexivity).
    apply wp_bind, (wp_slice _ _ _ a la x); auto. apply wp_bind, (wp_slice _ _ _ b lb y); auto. apply (wp_stop _ _ _ _ _ _ eq_refl). rewrite E1; auto.
  - assert (x =? y = false) as E. { apply Z.eqb_neq. intros E. apply E2 in E. destruct E as (_ & E & _). rewrite E, Bool.eqb_reflx in Eo. discriminate. } rewrite E in H.
    replace (_ && _) with false by (destruct (Z.odd a), (Z.odd b); cbn in *; congruence). apply (wp_stop _ _ _ _ _ _ eq_refl). auto.
Qed.

Lemma wq_eq_int dbg V O t a la x v (Q : tab -> bool -> Prop) : num a la x -> incl (ref a la) (V ++ O) -> std_ty t -> in_range t v = true ->
  (isigned t = true -> dbg = true -> v <> imin t) -> Q O ((if isigned t then x else Z.abs x) =? v) -> wq V O (p_eq_int dbg t a v) Q.
Proof.
  intros Na Ia Ht Hv Hd H. pose proof (num_facts _ _ _ Na) as (Wa & Ca & La & Va & Oa & Pa).
  pose proof (in_range_abs t v Ht Hv) as Hab. pose proof (arr_size_cap t Ht) as Hcap.
  assert (forall m, m = Z.abs v -> exists l', (do arr <- int_to_arr dbg 64 (arr_size t) m ;; shrink arr) = Ok l' /\ list_eqb la l' = (Z.abs x =? Z.abs v)) as HL.
  { intros m ->. destruct (int_to_arr_spec dbg 64 (arr_size t) (Z.abs v)) as (l & E & Hlen & Hw & Hval); [unfold arr_size; lia|lia|]. rewrite Z.mod_small in Hval by lia.
    destruct (shrink_ok 64 l Hw) as (l' & E' & Hw' & Hc' & Hval'). { rewrite Hlen. unfold arr_size. lia. }
    exists l'. rewrite E. cbn [bind]. split; auto. apply eq_true_iff_eq. rewrite list_eqb_ok, Z.eqb_eq. split; [intros ->; congruence|intros X; apply (canonical_inj 64); auto; congruence]. }
  unfold p_eq_int. destruct (isigned t) eqn:Hs.
  - destruct (signed_bounds t Ht Hs) as (B1 & B2 & B3). apply in_range_iff in Hv. rewrite is_negative_odd, Oa.
    destruct (Bool.eqb (x <? 0) (v <? 0)) eqn:Es; cbn [negb].
    2: { apply (wp_stop _ _ _ _ _ _ eq_refl). replace (x =? v) with false in H; auto. symmetry. apply Z.eqb_neq. intros ->. rewrite Bool.eqb_reflx in Es. discriminate. }
    apply Bool.eqb_prop in Es.
    assert (2 ^ Z.of_nat (ibits t) = 2 * (imax t + 1)) as Edbl.
    { destruct (std_ty_bits t Ht). unfold imax. rewrite Hs. rewrite Z.sub_add, <- Z.pow_succ_r by lia. f_equal. lia. }
    assert (exists m, (if v =? imin t then if dbg then Panic else Ok v else Ok (Z.abs v)) = Ok m /\ m mod 2 ^ Z.of_nat (ibits t) = Z.abs v) as (m & Em & Hm).
    { destruct (Z.eqb_spec v (imin t)) as [Ev|Ev].
      - destruct dbg; [elim (Hd eq_refl eq_refl Ev)|]. exists v. split; auto. rewrite Ev, B1. symmetry. apply Z.mod_unique with (q := -1); lia.
      - exists (Z.abs v). split; auto. apply Z.mod_small. lia. }
    apply wp_bind, (wp_stop _ _ _ _ _ _ Em). apply wp_bind, (wp_slice _ _ _ a la x); auto.
    destruct (HL _ Hm) as (l' & E & El). destruct (int_to_arr _ _ _ _) as [arr| |] eqn:Ea; cbn [bind] in E; try discriminate.
    apply wp_bind, (wp_stop _ _ _ _ _ _ eq_refl). apply wp_bind, (wp_stop _ _ _ _ _ _ E). apply (wp_stop _ _ _ _ _ _ eq_refl).
    rewrite El. replace (Z.abs x =? Z.abs v) with (x =? v); auto. apply eq_true_iff_eq. rewrite !Z.eqb_eq. destruct (Z.ltb_spec x 0), (Z.ltb_spec v 0); try discriminate; lia.
  - assert (Z.abs v = v) as Ev. { apply in_range_iff in Hv. unfold imin in Hv. rewrite Hs in Hv. lia. }
    destruct (HL v (eq_sym Ev)) as (l' & E & El). apply wp_bind, (wp_slice _ _ _ a la x); auto.
    destruct (int_to_arr _ _ _ _) as [arr| |] eqn:Ea; cbn [bind] in E; try discriminate.
    apply wp_bind, (wp_stop _ _ _ _ _ _ eq_refl). apply wp_bind, (wp_stop _ _ _ _ _ _ E). apply (wp_stop _ _ _ _ _ _ eq_refl). rewrite El, Ev. auto.
Qed.

(** ** Conversions and text *)

Lemma wq_truncate dbg V O t a la x (Q : tab -> Z -> Prop) : num a la x -> std_ty t -> (isigned t = true -> ibits t = 128%nat -> Z.abs x < 2 ^ 127) ->
  Q O ((if isigned t then Z.sgn x else 1) * Z.min (Z.abs x) (imax t)) -> wq V (ref a la ++ O) (p_truncate dbg t a) Q.
Proof.
  intros Na Ht Hi H. pose proof (num_facts _ _ _ Na) as (Wa & Ca & La & Va & Oa & Pa).
  unfold p_truncate. apply wp_bind, (wp_slice _ _ _ a la x); auto; [tabs|].
  apply wp_bind, (wp_stop _ _ _ _ _ _ (arr_to_int_exact dbg t la _ Ht Wa Ca Va)).
  assert (unwrap_or (magnitude_as t (Z.abs x)) (imax t) = Z.min (Z.abs x) (imax t)) as ->.
  { unfold magnitude_as. destruct (Z.leb_spec (Z.abs x) (imax t)) as [L|L]; cbn [unwrap_or]; [lia|].
    destruct (isigned t) eqn:Hs; cbn [andb unwrap_or]; [|lia]. destruct (Nat.eqb_spec (ibits t) 128) as [E|E]; cbn [andb unwrap_or]; [|lia].
    exfalso. specialize (Hi eq_refl E). unfold imax in L. rewrite Hs, E in L. change (Z.of_nat 128 - 1) with 127 in L. lia. }
  assert (0 < imax t) as Hp. { destruct (std_ty_bits t Ht) as [B _]. unfold imax. assert (2 ^ 1 < 2 ^ (Z.of_nat (ibits t) - 1)) by (apply Z.pow_lt_mono_r; lia). assert (2 ^ 1 < 2 ^ Z.of_nat (ibits t)) by (apply Z.pow_lt_mono_r; lia). destruct (isigned t); lia. }
  assert ((if isigned t then let p := Z.min (Z.abs x) (imax t) * (if is_negative a then -1 else 1) in if in_range t p then Ok p else if dbg then Panic else Ok (wrap t p) else Ok (Z.min (Z.abs x) (imax t)))
    = Ok ((if isigned t then Z.sgn x else 1) * Z.min (Z.abs x) (imax t))) as E.
  { destruct (isigned t) eqn:Hs; [|f_equal; lia]. destruct (signed_bounds t Ht Hs) as (B1 & _). rewrite is_negative_odd, Oa. cbv zeta.
    assert (Z.min (Z.abs x) (imax t) * (if x <? 0 then -1 else 1) = Z.sgn x * Z.min (Z.abs x) (imax t)) as ->.
    { destruct (Z.ltb_spec x 0); [rewrite Z.sgn_neg by lia; lia|]. destruct (Z.eq_dec x 0) as [->|]; [change (Z.abs 0) with 0; rewrite Z.min_l by lia; reflexivity|]. rewrite Z.sgn_pos by lia. lia. }
    assert (in_range t (Z.sgn x * Z.min (Z.abs x) (imax t)) = true) as ->; [|reflexivity]. apply in_range_iff.
    destruct (Z.sgn_spec x) as [[? ->]|[[? ->]|[? ->]]]; lia. }
  apply wp_bind, (wp_stop _ _ _ _ _ _ E). apply wp_bind, (wp_drop _ V [] O a la x); auto. apply (wp_stop _ _ _ _ _ _ eq_refl). exact H.
Qed.

Lemma wq_try dbg V O t a la x (Q : tab -> Z + side -> Prop) : fn (V ++ O) -> num a la x -> incl (ref a la) (V ++ O) -> std_ty t -> (ibits t <= 32)%nat ->
  Q O (if imax t <? x then inr Above else if x <? imin t then inr Below else if Z.abs x <=? imax t then inl (Z.abs x) else inr Above) -> wq V O (p_try_from dbg t a) Q.
Proof.
  intros F Na Ia Ht Hb H. pose proof (num_facts _ _ _ Na) as (Wa & Ca & La & Va & Oa & _).
  assert (- 2 ^ 32 <= imin t <= 0 /\ 0 <= imax t < 2 ^ 32) as [B1 B2].
  { destruct (std_ty_bits t Ht) as [B _]. unfold imin, imax.
    assert (2 ^ (Z.of_nat (ibits t) - 1) <= 2 ^ 32) by (apply Z.pow_le_mono_r; lia). assert (2 ^ Z.of_nat (ibits t) <= 2 ^ 32) by (apply Z.pow_le_mono_r; lia).
    assert (0 < 2 ^ (Z.of_nat (ibits t) - 1)) by (apply Z.pow_pos_nonneg; lia). assert (0 < 2 ^ Z.of_nat (ibits t)) by (apply Z.pow_pos_nonneg; lia). destruct (isigned t); lia. }
  unfold p_try_from.
  apply wp_bind, wp_from; auto; [apply in_range_iff; lia|right; lia|]. intros m lm Nm Fm.
  apply wp_bind, (wp_cmp _ _ _ a m la lm x (imax t)); auto; [tabs|tabs|unfold cmp_dom; lia|].
  apply wp_bind, (wp_drop _ V [] O m lm (imax t)); auto. cbn [app].
  destruct (Z.ltb_spec (imax t) x) as [X|X].
  { rewrite (proj2 (Z.compare_gt_iff x (imax t))) by lia. apply (wp_stop _ _ _ _ _ _ eq_refl). exact H. }
  assert (forall A (p q : A), match x ?= imax t with Gt => p | _ => q end = q) as ->. { intros A p q. destruct (Z.compare_spec x (imax t)); auto. lia. }
  apply wp_bind, wp_from; auto; [apply in_range_iff; lia|right; lia|]. intros m' lm' Nm' Fm'.
  apply wp_bind, (wp_cmp _ _ _ a m' la lm' x (imin t)); auto; [tabs|tabs|unfold cmp_dom; lia|].
  apply wp_bind, (wp_drop _ V [] O m' lm' (imin t)); auto. cbn [app].
  destruct (Z.ltb_spec x (imin t)) as [Y|Y].
  { rewrite (proj2 (Z.compare_lt_iff x (imin t))) by lia. apply (wp_stop _ _ _ _ _ _ eq_refl). exact H. }
  assert (forall A (p q : A), match x ?= imin t with Lt => p | _ => q end = q) as ->. { intros A p q. destruct (Z.compare_spec x (imin t)); auto. lia. }
  apply wp_bind, (wp_slice _ _ _ a la x); auto.
  apply wp_bind, (wp_stop _ _ _ _ _ _ (arr_to_int_exact dbg t la _ Ht Wa Ca Va)). apply (wp_stop _ _ _ _ _ _ eq_refl).
  unfold magnitude_as. destruct (Z.abs x <=? imax t); [exact H|]. destruct (Nat.eqb_spec (ibits t) 128); [lia|]. rewrite andb_false_r. exact H.
Qed.

Lemma wq_binary V O a la x (Q : tab -> list Z -> Prop) : num a la x -> incl (ref a la) (V ++ O) -> (forall s, binary_text x s -> Q O s) -> wq V O (p_binary a) Q.
Proof.
  intros Na Ia H. pose proof (num_facts _ _ _ Na) as (Wa & Ca & La & Va & Oa & Pa).
  unfold p_binary. apply wp_bind, (wp_slice _ _ _ a la x); auto.
  apply wp_bind, (wp_stop _ _ _ _ _ _ (bits_loop la Wa _ [] (le_n _))). apply (wp_stop _ _ _ _ _ _ eq_refl). apply H.
  exists (map (fun i => Z.b2z (Z.testbit (val 64 la) (Z.of_nat i))) (rev (seq 0 (bit_len 64 la)))).
  split; [unfold minus; rewrite is_negative_odd, Oa; reflexivity|]. split; [|split].
  - apply Forall_forall. intros d Hd. apply in_map_iff in Hd. destruct Hd as (i & <- & _). destruct (Z.testbit (val 64 la) (Z.of_nat i)); cbn; lia.
  - unfold digits_val. rewrite bits_val by auto. rewrite Z.mul_0_l, Z.add_0_l, <- Va. apply Z.mod_small. apply val_cap_bits; auto.
  - rewrite map_length, rev_length, seq_length. unfold bit_len. rewrite <- Va. rewrite <- (canonical_len la Wa Ca). lia.
Qed.

(** ** Questions *)

Section Ask.
Context (dbg : bool) (fuel : nat) (V : tab) (vars xs : list Z).
Context (HV : forall i, (i < length xs)%nat -> exists l, num (nth i vars 0) l (nth i xs 0) /\ incl (ref (nth i vars 0) l) V).

Definition stable {A} (Q : tab -> A -> Prop) : Prop := forall O O' a, Permutation O O' -> Q O a -> Q O' a.

Definition own (p : operand) (a : Z) (l : list Z) : tab := match p with Shared _ => [] | Made _ => ref a l end.
Lemma wq_operand p O (Q : tab -> Z -> Prop) : operand_ok dbg fuel xs p -> fn (V ++ O) -> stable Q ->
  (forall a l, num a l (about xs p) -> incl (ref a l) (V ++ own p a l ++ O) -> fn (V ++ own p a l ++ O) -> Q (own p a l ++ O) a) ->
  wq V O (p_operand dbg fuel vars p) Q.
Proof.
  intros Ho F HQ H. destruct p as [i|e]; cbn [operand_ok about p_operand own] in *.
  - destruct (HV i Ho) as (l & N & I). apply (wp_stop _ _ _ _ _ _ eq_refl). apply (H _ l); auto. tabs.
  - destruct Ho as [Hs Hm]. apply wp_eval with (xs := xs); auto. intros c lc Nc Fc. apply H; auto. tabs.
Qed.
Lemma wq_release p O a l x (Q : tab -> unit -> Prop) : num a l x -> Q O tt -> wq V (own p a l ++ O) (p_release p a) Q.
Proof.
  intros N H. destruct p as [i|e]; cbn [own p_release app].
  - apply (wp_stop _ _ _ _ _ _ eq_refl). exact H.
  - apply (wp_drop _ V [] O a l x); auto.
Qed.

(** Ask [g] about [p], then drop it. *)
Lemma wq_with p O (g : Z -> prog answer) (Q : tab -> answer -> Prop) : operand_ok dbg fuel xs p -> fn (V ++ O) -> stable Q ->
  (forall a l, num a l (about xs p) -> incl (ref a l) (V ++ own p a l ++ O) -> fn (V ++ own p a l ++ O) ->
     wq V (own p a l ++ O) (g a) (fun O' x => Permutation O' (own p a l ++ O) /\ Q O x)) ->
  wq V O (let% a := p_operand dbg fuel vars p in let% x := g a in let% _ := p_release p a in pret x) Q.
Proof.
  intros Ho F HQ H. apply wp_bind, wq_operand; auto.
  { intros O1 O2 a PM. apply wp_perm; auto. }
  intros a l N I Fa. apply wp_bind. eapply wp_mono; [|apply (H a l N I Fa)]. intros O' x [PM Hx]. cbv beta in *.
  eapply wp_perm; [exact HQ|symmetry; exact PM|]. apply wp_bind, (wq_release p O a l (about xs p)); auto. apply (wp_stop _ _ _ _ _ _ eq_refl). exact Hx.
Qed.

Lemma wq_ask q O (Q : tab -> answer -> Prop) : question_ok dbg fuel xs q -> fn (V ++ O) -> stable Q -> (forall a, right_answer xs q a -> Q O a) ->
  wq V O (p_ask dbg fuel vars q) Q.
Proof.
  assert (forall O0 (R : answer -> Prop), stable (fun O' x => Permutation O' O0 /\ R x)) as ST0.
  { intros O0 Q0 O1 O2 a PM [P1 X]. split; auto. rewrite <- PM. exact P1. }
  intros Hq F HQ H. destruct q as [p r|p r|t p v|t e|t p|p]; cbn [question_ok right_answer p_ask] in *.
  - destruct Hq as [Hp Hr]. apply wq_with; auto. intros a l N I Fa. apply wq_with; auto.
    intros b m M J Fb. apply wp_bind, (wq_cmp _ _ a b l m (about xs p) (about xs r)); auto; [tabs|].
    intros c Hc. apply (wp_stop _ _ _ _ _ _ eq_refl). split; [reflexivity|]. split; [reflexivity|]. eauto.
  - destruct Hq as [Hp Hr]. apply wq_with; auto. intros a l N I Fa. apply wq_with; auto.
    intros b m M J Fb. apply wp_bind, (wq_eq _ _ a b l m (about xs p) (about xs r)); auto; [tabs|].
    apply (wp_stop _ _ _ _ _ _ eq_refl). split; [reflexivity|]. split; [reflexivity|]. eauto.
  - destruct Hq as (Hp & Ht & Hv & Hd). apply wq_with; auto. intros a l N I Fa.
    apply wp_bind, (wq_eq_int _ _ _ t a l (about xs p)); auto. apply (wp_stop _ _ _ _ _ _ eq_refl). split; [reflexivity|]. auto.
  - destruct Hq as ([Hs Hm] & Ht & Hi). apply wp_bind, wp_eval with (xs := xs); auto.
    { intros O1 O2 a PM. apply wp_perm; auto. }
    intros c lc Nc Fc. apply wp_bind, (wq_truncate _ _ _ t c lc (value_with outcome xs e)); auto. apply (wp_stop _ _ _ _ _ _ eq_refl). auto.
  - destruct Hq as (Hp & Ht & Hb). apply wq_with; auto. intros a l N I Fa.
    apply wp_bind, (wq_try _ _ _ t a l (about xs p)); auto. apply (wp_stop _ _ _ _ _ _ eq_refl). split; [reflexivity|]. auto.
  - apply wq_with; auto. intros a l N I Fa. apply wp_bind, (wq_binary _ _ a l (about xs p)); auto.
    intros s Hs. apply (wp_stop _ _ _ _ _ _ eq_refl). split; [reflexivity|]. eauto.
Qed.

Lemma wq_asks qs : forall O (Q : tab -> list answer -> Prop), (forall q, In q qs -> question_ok dbg fuel xs q) -> fn (V ++ O) -> stable Q ->
  (forall l, Forall2 (right_answer xs) qs l -> Q O l) -> wq V O (p_asks dbg fuel vars qs) Q.
Proof.
  induction qs as [|q qs IH]; intros O Q Hq F HQ H; cbn [p_asks].
  - apply (wp_stop _ _ _ _ _ _ eq_refl). auto.
  - apply wp_bind, wq_ask; auto; [apply Hq; left; auto|intros O1 O2 a PM; apply wp_perm; auto; intros O3 O4 b PM'; apply wp_perm; auto|]. intros a Ha.
    apply wp_bind, IH; auto; [intros x Hx; apply Hq; right; auto|intros O1 O2 l PM; apply wp_perm; auto|]. intros l Hl.
    apply (wp_stop _ _ _ _ _ _ eq_refl). apply H. constructor; auto.
Qed.
End Ask.
