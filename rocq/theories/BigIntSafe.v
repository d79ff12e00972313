(** Every BigInt operation, whatever its operands, keeps the store consistent with the
    handles in circulation and does not disturb other handles. *)
From Coq Require Import ZArith List Bool Lia Permutation.
From Verif Require Import Base Words Spec TextSpec Arith BitSliceModel BitSliceProofs ElementModel
  BitwiseModel ElemAddSub ElemMul ElemShift BitwiseProofs InternModel InternProofs BigIntModel BigIntSpec
  BigIntProofs BigIntOps BigIntConv BigIntText.
Import ListNotations.
Local Open Scope Z_scope.

(** [m] consumes the handles [ins], may look at [refs], and returns the handles [outs r]. *)
Definition safe {A} (P n : Z) (refs ins : list Z) (m : M A) (outs : A -> list Z) (Q : A -> Prop) : Prop :=
  forall st hs, consistent P st (ins ++ hs) -> room P hs n -> incl refs hs ->
  forall r st', m st = Ok (r, st') -> consistent P st' (outs r ++ hs) /\ keeps st st' hs /\ Q r.

Definition any {A} (_ : A) : Prop := True.
Definition none {A} (_ : A) : list Z := [].
Definition one (c : Z) : list Z := [c].
Definition nonnz (c : Z) : Prop := c <> neg_zero.

Lemma mbind_inv {A B} (m : M A) (f : A -> M B) st r st2 : mbind m f st = Ok (r, st2) ->
  exists a st1, m st = Ok (a, st1) /\ f a st1 = Ok (r, st2).
Proof. unfold mbind. destruct (m st) as [[a st1]| |]; cbn [bind]; intros H; try discriminate. eauto. Qed.

Lemma safe_bind {A B} P n refs ins (m : M A) (f : A -> M B) o1 o2 (Q1 : A -> Prop) (Q2 : B -> Prop) :
  safe P n refs ins m o1 Q1 -> (forall a, Q1 a -> safe P n refs (o1 a) (f a) o2 Q2) ->
  safe P n refs ins (mbind m f) o2 Q2.
Proof.
  intros H1 H2 st hs Hc Hr Hi r st' E. apply mbind_inv in E. destruct E as (a & st1 & E1 & E2).
  destruct (H1 st hs Hc Hr Hi _ _ E1) as (C1 & K1 & q1).
  destruct (H2 a q1 st1 hs C1 Hr Hi _ _ E2) as (C2 & K2 & q2).
  split; auto. split; auto. eapply keeps_trans; eauto.
Qed.

Lemma safe_weaken {A} P n n' refs refs' ins ins' (m : M A) o o' (Q Q' : A -> Prop) :
  safe P n refs ins m o Q -> n <= n' -> incl refs refs' -> Permutation ins ins' ->
  (forall a, Q a -> Permutation (o a) (o' a) /\ Q' a) -> safe P n' refs' ins' m o' Q'.
Proof.
  intros H Hn Hi Hp Ho st hs Hc Hr Hi' r st' E.
  destruct (H st hs) with (r := r) (st' := st') as (C & K & q); auto.
  - eapply con_perm; [|exact Hc]. apply Permutation_app_tail. symmetry. auto.
  - eapply room_le; eauto.
  - eapply incl_tran; eauto.
  - destruct (Ho r q) as [Hpo q']. split; auto. eapply con_perm; [|exact C]. apply Permutation_app_tail. auto.
Qed.

Lemma live_app l r : live (l ++ r) = (live l + live r)%nat.
Proof. unfold live. rewrite filter_app, app_length. auto. Qed.
Lemma live_le_length l : (live l <= length l)%nat.
Proof. unfold live. induction l as [|x l IH]; cbn [filter length]; [lia|]. destruct (negb (Z.testbit x 1)); cbn [length]; lia. Qed.

Lemma safe_frame {A} P k n refs refs' ins F (m : M A) o Q :
  safe P k refs ins m o Q -> k + Z.of_nat (length F) <= n -> incl refs (F ++ refs') ->
  safe P n refs' (ins ++ F) m (fun a => o a ++ F) Q.
Proof.
  intros H Hn Hi st hs Hc Hr Hi' r st' E. rewrite <- app_assoc in Hc.
  destruct (H st (F ++ hs) Hc) with (r := r) (st' := st') as (C & K & q); auto.
  - unfold room in *. rewrite live_app. pose proof (live_le_length F). lia.
  - intros x Hx. apply Hi in Hx. apply in_app_iff in Hx. apply in_app_iff. destruct Hx; auto.
  - rewrite <- app_assoc. split; auto. split; auto. eapply keeps_incl; [exact K|].
    intros x Hx. apply in_app_iff. auto.
Qed.

Lemma safe_ret {A} P n refs (a : A) o (Q : A -> Prop) : Q a -> safe P n refs (o a) (ret a) o Q.
Proof.
  intros q st hs Hc Hr Hi r st' E. unfold ret in E. assert (r = a) as -> by congruence.
  assert (st' = st) as -> by congruence. split; auto. split; auto. apply keeps_refl.
Qed.

Lemma safe_ret0 {A} P n refs (a : A) (Q : A -> Prop) : Q a -> safe P n refs [] (ret a) none Q.
Proof. intros q. apply (safe_ret P n refs a none). auto. Qed.

Lemma safe_lift {A} P n refs ins (x : res A) (Q : A -> Prop) : (forall a, x = Ok a -> Q a) ->
  safe P n refs ins (lift x) (fun _ => ins) Q.
Proof.
  intros q st hs Hc Hr Hi r st' E. unfold lift in E. destruct x as [a| |]; cbn [bind] in E; try discriminate.
  assert (r = a) as -> by congruence. assert (st' = st) as -> by congruence. split; auto. split; auto. apply keeps_refl.
Qed.

Lemma safe_reads {A} P n refs ins (f : istore -> res A) : safe P n refs ins (reads f) (fun _ => ins) any.
Proof.
  intros st hs Hc Hr Hi r st' E. unfold reads in E. destruct (f st) as [a| |]; cbn [bind] in E; try discriminate.
  assert (st' = st) as -> by congruence. split; auto. split; [apply keeps_refl|exact I].
Qed.

Definition good (l : list Z) : Prop := wf 64 l /\ l <> [].

Lemma safe_slice P n refs ins a : In a refs -> safe P n refs ins (reads (fun st => bi_slice st a)) (fun _ => ins) good.
Proof.
  intros Ha st hs Hc Hr Hi r st' E. unfold reads in E.
  destruct (con_slice P st (ins ++ hs) a Hc) as (l & S & W & C & _). { apply in_app_iff. right. auto. }
  rewrite S in E. cbn [bind] in E. assert (r = l) as -> by congruence. assert (st' = st) as -> by congruence.
  split; auto. split; [apply keeps_refl|]. split; auto. apply canonical_ne. auto.
Qed.

Lemma safe_new_slice P n refs dbg l neg : 0 <= n -> good l -> safe P n refs [] (new_slice dbg l neg) one nonnz.
Proof.
  intros Hn [Hw Hne] st hs Hc Hr Hi r st' E. cbn [app] in Hc.
  destruct (new_slice_spec dbg P st hs l neg Hc ltac:(eapply room_le; eauto) Hw Hne) as (c & st1 & E1 & C & K & _ & N).
  rewrite E1 in E. assert (r = c) as -> by congruence. assert (st' = st1) as -> by congruence. cbn. split; auto.
Qed.

Lemma safe_drop P n refs a : safe P n refs [a] (bi_drop a) none any.
Proof.
  intros st hs Hc Hr Hi r st' E. destruct (drop_spec P st hs a Hc) as (st1 & E1 & C & K).
  rewrite E1 in E. assert (st' = st1) as -> by congruence. cbn. split; auto. split; auto. exact I.
Qed.

Lemma safe_clone P n refs dbg a : 0 <= n -> In a refs -> safe P n refs [] (bi_clone dbg a) one (fun c => c = a).
Proof.
  intros Hn Ha st hs Hc Hr Hi r st' E. cbn [app] in Hc.
  destruct (clone_spec dbg P st hs a Hc ltac:(eapply room_le; eauto) ltac:(auto)) as (st1 & E1 & C & K).
  rewrite E1 in E. assert (r = a) as -> by congruence. assert (st' = st1) as -> by congruence. cbn. auto.
Qed.

Lemma safe_from P n refs dbg t v : 0 <= n -> std_ty t -> in_range t v = true -> safe P n refs [] (bi_from dbg t v) one nonnz.
Proof.
  intros Hn Ht Hv st hs Hc Hr Hi r st' E. cbn [app] in Hc.
  destruct (from_spec dbg P st hs t v Hc ltac:(eapply room_le; eauto) Ht Hv) as (c & st1 & E1 & C & K & _ & N).
  rewrite E1 in E. assert (r = c) as -> by congruence. assert (st' = st1) as -> by congruence. cbn. split; auto.
Qed.

(** ** Well-formed limbs out of every slice operation *)

Lemma foldR_preserve {S E} (I : S -> Prop) (f : S -> E -> res S) xs :
  (forall s x s', I s -> f s x = Ok s' -> I s') -> forall s s', I s -> foldR f xs s = Ok s' -> I s'.
Proof.
  intros Hf. induction xs as [|x xs IH]; intros s s' Hs; cbn [foldR].
  - intros Q. assert (s' = s) as -> by congruence. auto.
  - destruct (f s x) as [s1| |] eqn:E1; cbn [bind]; intros Q; try discriminate.
    eapply IH; [|exact Q]. eapply Hf; eauto.
Qed.

Lemma wf_shl_wrapping dbg w l n out : (0 < w)%nat -> wf w l -> elem_shl_wrapping dbg w l n = Ok out ->
  wf w out /\ length out = length l.
Proof.
  intros Hw Hl E. unfold elem_shl_wrapping in E. destruct (masked_amount dbg (bit_len w l) n) as [amt| |]; cbn [bind] in E; try discriminate.
  pose proof (inner_shl_spec w amt Hw l Hl) as H. destruct (Nat.leb _ _).
  - destruct H as (o & E' & L & W & _). assert (o = out) as -> by congruence. auto.
  - congruence.
Qed.

Lemma wf_set_bit w l i b out : (0 < w)%nat -> wf w l -> set_bit w l i b = Ok out -> wf w out /\ length out = length l.
Proof.
  intros Hw Hl E. destruct (Nat.ltb_spec i (bit_len w l)) as [Hi|Hi].
  - rewrite set_bit_in in E by auto. assert (out = bset w l i b) as -> by congruence.
    split; [apply wf_bset; auto|apply length_bset].
  - rewrite set_bit_out in E by auto. discriminate.
Qed.

Lemma bit_div_long_wf dbg w num dv q r : (0 < w)%nat -> wf w num -> wf w dv -> bit_div_long dbg w num dv = Ok (q, r) ->
  wf w q /\ wf w r /\ length q = Nat.max (length num) (length dv) /\ length r = Nat.max (length num) (length dv).
Proof.
  intros Hw Hn Hd E. unfold bit_div_long in E. set (len := Nat.max (length num) (length dv)) in *.
  apply (foldR_preserve (fun '(q, r) => wf w q /\ wf w r /\ length q = len /\ length r = len)) in E; auto.
  - intros [q0 r0] idx [q1 r1] (W1 & W2 & L1 & L2) E1.
    unfold div_shift_in in E1.
    destruct (elem_shl_wrapping dbg w r0 1) as [r2| |] eqn:Es; cbn [bind] in E1; try discriminate.
    destruct (wf_shl_wrapping dbg w r0 1 r2 Hw W2 Es) as [W3 L3].
    destruct (get_bit w num idx) as [b| |]; cbn [bind] in E1; try discriminate.
    destruct (set_bit w r2 0 b) as [r3| |] eqn:Eb; cbn [bind] in E1; try discriminate.
    destruct (wf_set_bit w r2 0 b r3 Hw W3 Eb) as [W4 L4].
    destruct (is_ge (elem_cmp r3 dv)).
    + destruct (set_bit w q0 idx true) as [q3| |] eqn:Eq; cbn [bind] in E1; try discriminate.
      destruct (wf_set_bit w q0 idx true q3 Hw W1 Eq) as [W5 L5].
      assert (q1 = q3) as -> by congruence. assert (r1 = elem_sub_wrapping w r3 dv) as -> by congruence.
      pose proof (elem_sub_overflowing_spec w r3 dv Hw W4 Hd ltac:(lia)) as HS.
      unfold elem_sub_wrapping. destruct (elem_sub_overflowing w r3 dv) as [o c]. destruct HS as (S1 & S2 & _).
      cbn [fst]. split; auto. split; auto. split; lia.
    + assert (q1 = q0) as -> by congruence. assert (r1 = r3) as -> by congruence.
      split; auto. split; auto. split; lia.
  - rewrite !length_zeros. split; [apply wf_zeros|]. split; [apply wf_zeros|]. auto.
Qed.

Lemma wf_bitop op l r : wf 64 l -> wf 64 r ->
  (forall a b, 0 <= a < base 64 -> 0 <= b < base 64 -> 0 <= op a b < base 64) -> wf 64 (elem_bitop op l r).
Proof.
  intros Hl Hr Hop. destruct (elem_bitop_spec op l r) as [Hlen Hget].
  apply wf_zget_iff. rewrite Hlen. intros. rewrite Hget by auto. auto using wf_zget.
Qed.

Lemma bitop_ne op l r : l <> [] -> elem_bitop op l r <> [].
Proof.
  intros H E. destruct (elem_bitop_spec op l r) as [Hlen _]. rewrite E in Hlen. destruct l; [congruence|cbn [length] in Hlen; lia].
Qed.

(** ** The operations *)

Lemma safe_with_slices {A} P n refs ins a b (f : list Z -> list Z -> M A) o Q : In a refs -> In b refs ->
  (forall la lb, good la -> good lb -> safe P n refs ins (f la lb) o Q) ->
  safe P n refs ins (with_slices a b f) o Q.
Proof.
  intros Ha Hb H. unfold with_slices. eapply safe_bind; [apply safe_slice; auto|].
  intros la Hla. eapply safe_bind; [apply safe_slice; auto|]. intros lb Hlb. auto.
Qed.

Lemma good_len l : good l -> (0 < length l)%nat.
Proof. intros [_ H]. destruct l; [congruence|cbn; lia]. Qed.

Definition binop := bool -> Z -> Z -> M Z.
Definition safe_op (op : binop) : Prop :=
  forall P n refs dbg a b, 0 <= n -> In a refs -> In b refs -> safe P n refs [] (op dbg a b) one nonnz.

Definition good1 (p : list Z * bool) : Prop := good (fst p).

Lemma safe_add : safe_op bi_add.
Proof.
  intros P n refs dbg a b Hn Ha Hb. unfold bi_add.
  eapply safe_bind with (o1 := none) (Q1 := good1).
  - apply safe_with_slices; auto. intros la lb Ga Gb. pose proof (good_len la Ga). pose proof (good_len lb Gb).
    destruct Ga as [Wa _]. destruct Gb as [Wb _].
    destruct (elem_add_spec 64 la lb ltac:(lia) Wa Wb) as (s & Es & Ws & Cs & Vs).
    destruct (elem_sub_spec 64 la lb ltac:(lia) Wa Wb ltac:(lia)) as (d & Ed & Wd & Cd & Vd).
    assert (safe P n refs [] (let! out := lift (elem_add 64 la lb) in ret (out, is_negative a)) none good1) as S1.
    { eapply safe_bind with (o1 := none) (Q1 := good); [apply (safe_lift P n refs []); intros o Q; assert (o = s) as -> by congruence;
        split; auto; apply canonical_ne; auto|]. intros o G. apply safe_ret0. exact G. }
    assert (safe P n refs [] (lift (elem_sub 64 la lb)) none good1) as S2.
    { apply (safe_lift P n refs []). intros o Q. assert (o = (d, val 64 la <? val 64 lb)) as -> by congruence.
      split; cbn; auto. apply canonical_ne; auto. }
    destruct (is_positive a), (is_positive b); auto.
    eapply safe_bind; [exact S2|]. intros [o g] G. apply safe_ret0. exact G.
  - intros [out neg] G. apply safe_new_slice; auto.
Qed.

Lemma safe_sub : safe_op bi_sub.
Proof.
  intros P n refs dbg a b Hn Ha Hb. unfold bi_sub.
  eapply safe_bind with (o1 := none) (Q1 := good1).
  - apply safe_with_slices; auto. intros la lb Ga Gb. pose proof (good_len la Ga). pose proof (good_len lb Gb).
    destruct Ga as [Wa _]. destruct Gb as [Wb _].
    destruct (elem_add_spec 64 la lb ltac:(lia) Wa Wb) as (s & Es & Ws & Cs & Vs).
    destruct (elem_sub_spec 64 la lb ltac:(lia) Wa Wb ltac:(lia)) as (d & Ed & Wd & Cd & Vd).
    assert (safe P n refs [] (let! out := lift (elem_add 64 la lb) in ret (out, is_negative a)) none good1) as S1.
    { eapply safe_bind with (o1 := none) (Q1 := good); [apply (safe_lift P n refs []); intros o Q; assert (o = s) as -> by congruence;
        split; auto; apply canonical_ne; auto|]. intros o G. apply safe_ret0. exact G. }
    assert (safe P n refs [] (lift (elem_sub 64 la lb)) none good1) as S2.
    { apply (safe_lift P n refs []). intros o Q. assert (o = (d, val 64 la <? val 64 lb)) as -> by congruence.
      split; cbn; auto. apply canonical_ne; auto. }
    destruct (is_positive a), (is_positive b); auto.
    eapply safe_bind; [exact S2|]. intros [o g] G. apply safe_ret0. exact G.
  - intros [out neg] G. apply safe_new_slice; auto.
Qed.

Lemma safe_mul : safe_op bi_mul.
Proof.
  intros P n refs dbg a b Hn Ha Hb. unfold bi_mul.
  eapply safe_bind with (o1 := none) (Q1 := good).
  - apply safe_with_slices; auto. intros la lb Ga Gb. pose proof (good_len la Ga). pose proof (good_len lb Gb).
    destruct Ga as [Wa _]. destruct Gb as [Wb _].
    destruct (elem_mul_spec 64 la lb ltac:(lia) Wa Wb ltac:(lia)) as (s & Es & Ws & Cs & Vs).
    apply (safe_lift P n refs []). intros o Q. assert (o = s) as -> by congruence. split; auto. apply canonical_ne; auto.
  - intros out G. apply safe_new_slice; auto.
Qed.

Lemma safe_div : safe_op bi_div.
Proof.
  intros P n refs dbg a b Hn Ha Hb. unfold bi_div.
  eapply safe_bind with (o1 := none) (Q1 := good).
  - apply safe_with_slices; auto. intros la lb Ga Gb. pose proof (good_len la Ga).
    destruct Ga as [Wa _]. destruct Gb as [Wb _].
    eapply safe_bind with (o1 := none) (Q1 := fun p => good (fst p)).
    + apply (safe_lift P n refs []). intros [q r] E. destruct (bit_div_long_wf dbg 64 la lb q r ltac:(lia) Wa Wb E) as (W1 & W2 & L1 & L2).
      split; auto. cbn. intros ->. cbn in *. lia.
    + intros [q r] G. apply safe_ret0. exact G.
  - intros out G. apply safe_new_slice; auto.
Qed.

Lemma safe_rem : safe_op bi_rem.
Proof.
  intros P n refs dbg a b Hn Ha Hb. unfold bi_rem.
  eapply safe_bind with (o1 := none) (Q1 := good).
  - apply safe_with_slices; auto. intros la lb Ga Gb. pose proof (good_len la Ga).
    destruct Ga as [Wa _]. destruct Gb as [Wb _].
    eapply safe_bind with (o1 := none) (Q1 := fun p => good (snd p)).
    + apply (safe_lift P n refs []). intros [q r] E. destruct (bit_div_long_wf dbg 64 la lb q r ltac:(lia) Wa Wb E) as (W1 & W2 & L1 & L2).
      split; auto. cbn. intros ->. cbn in *. lia.
    + intros [q r] G. apply safe_ret0. exact G.
  - intros out G. apply safe_new_slice; auto.
Qed.

Lemma safe_try_from P n refs dbg t a : 0 <= n -> std_ty t -> safe P n refs [] (bi_try_from dbg t a) none any.
Proof.
  intros Hn Ht. unfold bi_try_from.
  eapply safe_bind; [apply safe_from; auto; apply in_range_max; auto|]. intros m _.
  eapply safe_bind; [apply (safe_reads P n refs [m])|]. intros c _.
  eapply safe_bind with (o1 := none); [apply safe_drop|]. intros u _.
  assert (safe P n refs [] (let! m0 := bi_from dbg t (imin t) in
     let! c0 := reads (fun st => bi_cmp st a m0) in
     let! _ := bi_drop m0 in
     match c0 with
     | Lt => ret (inr Below)
     | _ => let! l := reads (fun st => bi_slice st a) in
            let! o := lift (arr_to_int dbg 64 t l) in ret (match o with Some v => inl v | None => inr Above end)
     end) none any) as S.
  { eapply safe_bind; [apply safe_from; auto; apply in_range_min; auto|]. intros m2 _.
    eapply safe_bind; [apply (safe_reads P n refs [m2])|]. intros c2 _.
    eapply safe_bind with (o1 := none); [apply safe_drop|]. intros u2 _.
    assert (safe P n refs [] (let! l := reads (fun st => bi_slice st a) in
            let! o := lift (arr_to_int dbg 64 t l) in ret (match o with Some v => inl v | None => inr Above end)) none any) as S2.
    { eapply safe_bind with (o1 := none); [apply (safe_reads P n refs [])|]. intros l _.
      eapply safe_bind with (o1 := none) (Q1 := any); [apply (safe_lift P n refs []); intros; exact I|]. intros o _.
      apply safe_ret0. exact I. }
    destruct c2; auto. apply safe_ret0. exact I. }
  destruct c; auto. apply safe_ret0. exact I.
Qed.

Lemma safe_shift_amount P n refs dbg b : 0 <= n -> safe P n refs [] (shift_amount dbg b) none any.
Proof.
  intros Hn. unfold shift_amount. eapply safe_bind with (o1 := none); [apply safe_try_from; auto; unfold std_ty; cbn; auto|].
  intros [v|s] _; [apply safe_ret0; exact I|].
  intros st hs _ _ _ r st' E. discriminate E.
Qed.

Lemma safe_shl : safe_op bi_shl.
Proof.
  intros P n refs dbg a b Hn Ha Hb. unfold bi_shl.
  eapply safe_bind with (o1 := none) (Q1 := good).
  - apply safe_with_slices; auto. intros la lb [Wa _] _.
    eapply safe_bind with (o1 := none); [apply safe_shift_amount; auto|]. intros k _.
    destruct (elem_shl_spec 64 k ltac:(lia) la Wa) as (out & Eo & Wo & Co & Vo).
    apply (safe_lift P n refs []). intros o Q. assert (o = out) as -> by congruence. split; auto. apply canonical_ne; auto.
  - intros out G. apply safe_new_slice; auto.
Qed.

Lemma safe_shr : safe_op bi_shr.
Proof.
  intros P n refs dbg a b Hn Ha Hb. unfold bi_shr.
  eapply safe_bind with (o1 := none) (Q1 := good).
  - apply safe_with_slices; auto. intros la lb Ga _. pose proof (good_len la Ga) as La. destruct Ga as [Wa _].
    eapply safe_bind with (o1 := none); [apply safe_shift_amount; auto|]. intros k _.
    apply (safe_lift P n refs []). intros o Q.
    assert (dbg = false \/ Nat.div k 64 = 0%nat \/ (dbg = true /\ (0 < Nat.div k 64)%nat)) as [D|[D|[D D']]] by (destruct dbg; lia).
    + destruct (elem_shr_spec 64 k ltac:(lia) dbg la Wa La ltac:(auto)) as (out & Eo & Wo & Co & Vo).
      assert (o = out) as -> by congruence. split; auto. apply canonical_ne; auto.
    + destruct (elem_shr_spec 64 k ltac:(lia) dbg la Wa La ltac:(auto)) as (out & Eo & Wo & Co & Vo).
      assert (o = out) as -> by congruence. split; auto. apply canonical_ne; auto.
    + subst dbg. rewrite (elem_shr_debug_panic 64 k ltac:(lia) la La D') in Q. discriminate.
  - intros out G. apply safe_new_slice; auto.
Qed.

Lemma safe_bitop op : (forall a b, 0 <= a < base 64 -> 0 <= b < base 64 -> 0 <= op a b < base 64) ->
  safe_op (fun dbg => bi_bitop dbg op).
Proof.
  intros Hop P n refs dbg a b Hn Ha Hb. unfold bi_bitop.
  eapply safe_bind with (o1 := none) (Q1 := good).
  - apply safe_with_slices; auto. intros la lb [Wa Na] [Wb Nb].
    apply safe_ret0. split; [apply wf_bitop; auto|apply bitop_ne; auto].
  - intros out G. apply safe_new_slice; auto.
Qed.

Lemma safe_drop_in P n refs a ins rest : Permutation ins (a :: rest) ->
  safe P n refs ins (bi_drop a) (fun _ => rest) any.
Proof.
  intros Hp st hs Hc Hr Hi r st' E.
  destruct (drop_spec P st (rest ++ hs) a) as (st1 & E1 & C & K).
  - eapply con_perm; [|exact Hc]. apply (Permutation_app_tail hs Hp).
  - rewrite E1 in E. assert (st' = st1) as -> by congruence. split; auto. split; [|exact I].
    eapply keeps_incl; [exact K|]. intros x Hx. apply in_app_iff. auto.
Qed.

Lemma safe_new P n refs refs0 F (m : M Z) Q : safe P 0 refs0 [] m one Q -> Z.of_nat (length F) <= n ->
  incl refs0 (F ++ refs) -> safe P n refs F m (fun c => c :: F) Q.
Proof.
  intros H Hn Hi. eapply safe_weaken with (n := n) (refs := refs) (ins := [] ++ F) (Q := Q).
  - eapply safe_frame; [exact H|lia|exact Hi].
  - lia.
  - apply incl_refl.
  - reflexivity.
  - intros a q. cbn. auto.
Qed.

Lemma safe_op_new (op : binop) P n refs F dbg a b : safe_op op -> Z.of_nat (length F) <= n ->
  In a (F ++ refs) -> In b (F ++ refs) -> safe P n refs F (op dbg a b) (fun c => c :: F) nonnz.
Proof.
  intros H Hn Ha Hb. apply safe_new with (refs0 := F ++ refs); auto; [|apply incl_refl].
  apply H; auto. lia.
Qed.

(** Permutations of lists with explicit elements. *)
Ltac perm_go a l pre r :=
  lazymatch r with
  | a :: ?r' => change (Permutation (a :: l) (pre ++ a :: r')); apply Permutation_cons_app; cbn [app]
  | ?b :: ?r' => let pre' := eval cbn [app] in (pre ++ [b]) in perm_go a l pre' r'
  end.
Ltac perm := cbn [app]; repeat (first
  [ reflexivity
  | lazymatch goal with |- Permutation (?a :: ?l) ?r => perm_go a l (@nil Z) r end ]).

Lemma perm_rot3 (a b c : Z) l : Permutation (a :: b :: c :: l) (c :: a :: b :: l).
Proof. eapply perm_trans; [apply perm_skip, perm_swap|apply perm_swap]. Qed.

Lemma safe_by_val (op : binop) P n refs F dbg a b : safe_op op -> Z.of_nat (length F) + 2 <= n ->
  safe P n refs (a :: b :: F) (by_val (op dbg) a b) (fun c => c :: F) nonnz.
Proof.
  intros H Hn. unfold by_val.
  eapply safe_bind; [apply (safe_op_new op P n refs (a :: b :: F)); [exact H|cbn [length]; lia|left; auto|right; left; auto]|].
  intros c Nc. cbn beta.
  eapply safe_bind; [apply (safe_drop_in P n refs b) with (rest := c :: a :: F)|].
  { apply perm_rot3. }
  intros u _. cbn beta.
  eapply safe_bind; [apply (safe_drop_in P n refs a) with (rest := c :: F)|]. { apply perm_swap. }
  intros u2 _. cbn beta. apply (safe_ret P n refs c (fun c => c :: F)). exact Nc.
Qed.

Lemma safe_by_val_ref (op : binop) P n refs F dbg a b : safe_op op -> Z.of_nat (length F) + 1 <= n ->
  In b (a :: F ++ refs) ->
  safe P n refs (a :: F) (by_val_ref (op dbg) a b) (fun c => c :: F) nonnz.
Proof.
  intros H Hn Hb. unfold by_val_ref.
  eapply safe_bind; [apply (safe_op_new op P n refs (a :: F)); [exact H|cbn [length]; lia|left; auto|exact Hb]|].
  intros c Nc. cbn beta.
  eapply safe_bind; [apply (safe_drop_in P n refs a) with (rest := c :: F)|]. { apply perm_swap. }
  intros u2 _. cbn beta. apply (safe_ret P n refs c (fun c => c :: F)). exact Nc.
Qed.

Lemma safe_by_ref_val (op : binop) P n refs F dbg a b : safe_op op -> Z.of_nat (length F) + 1 <= n ->
  In a (b :: F ++ refs) ->
  safe P n refs (b :: F) (by_ref_val (op dbg) a b) (fun c => c :: F) nonnz.
Proof.
  intros H Hn Hb. unfold by_ref_val.
  eapply safe_bind; [apply (safe_op_new op P n refs (b :: F)); [exact H|cbn [length]; lia|exact Hb|left; auto]|].
  intros c Nc. cbn beta.
  eapply safe_bind; [apply (safe_drop_in P n refs b) with (rest := c :: F)|]. { apply perm_swap. }
  intros u2 _. cbn beta. apply (safe_ret P n refs c (fun c => c :: F)). exact Nc.
Qed.

Lemma safe_op_int (op : binop) P n refs F dbg t a v : safe_op op -> Z.of_nat (length F) + 2 <= n ->
  std_ty t -> in_range t v = true ->
  safe P n refs (a :: F) (op_int dbg (op dbg) t a v) (fun c => c :: F) nonnz.
Proof.
  intros H Hn Ht Hv. unfold op_int.
  eapply safe_bind; [apply (safe_new P n refs []) with (F := a :: F); [apply safe_from; auto; lia|cbn [length]; lia|intros x []]|].
  intros b _. cbn beta.
  eapply safe_weaken; [apply (safe_by_val op P n refs F dbg a b); auto|lia|apply incl_refl|apply perm_swap|].
  intros c Nc. split; [reflexivity|exact Nc].
Qed.

Lemma safe_bind0 {A B} P n refs ins (m : M A) (f : A -> M B) o2 (Q1 : A -> Prop) (Q2 : B -> Prop) :
  safe P n refs ins m (fun _ => ins) Q1 -> (forall a, Q1 a -> safe P n refs ins (f a) o2 Q2) ->
  safe P n refs ins (mbind m f) o2 Q2.
Proof. intros H1 H2. eapply safe_bind; [exact H1|]. intros a q. apply H2. auto. Qed.

(** A computation without handles of its own, while [F] are held. *)
Lemma safe_none {A} P n refs refs0 F (m : M A) Q : safe P 0 refs0 [] m none Q -> Z.of_nat (length F) <= n ->
  incl refs0 (F ++ refs) -> safe P n refs F m (fun _ => F) Q.
Proof.
  intros H Hn Hi. eapply safe_weaken with (n := n) (refs := refs) (ins := [] ++ F) (Q := Q).
  - eapply safe_frame; [exact H|lia|exact Hi].
  - lia.
  - apply incl_refl.
  - reflexivity.
  - intros a q. cbn. auto.
Qed.

Lemma safe_cmp_int P n refs dbg t a v : 0 <= n -> std_ty t -> in_range t v = true ->
  safe P n refs [] (bi_cmp_int dbg t a v) none any.
Proof.
  intros Hn Ht Hv. unfold bi_cmp_int.
  eapply safe_bind; [apply safe_from; auto|]. intros m _.
  eapply safe_bind0; [apply (safe_reads P n refs [m])|]. intros c _.
  eapply safe_bind with (o1 := none); [apply safe_drop|]. intros u _. apply safe_ret0. exact I.
Qed.

Lemma safe_not P n refs dbg a : 1 <= n -> safe P n refs [a] (bi_not dbg a) one nonnz.
Proof.
  intros Hn. unfold bi_not.
  intros st hs Hc Hr Hi r st' E.
  revert r st' E. 
  assert (safe P (n - 1) (a :: refs) [] (let! l := reads (fun st => bi_slice st a) in new_slice dbg (elem_not 64 l) (is_negative a)) one nonnz) as S.
  { eapply safe_bind with (o1 := none); [apply safe_slice; left; auto|]. intros l [W Ne].
    apply safe_new_slice; [lia|]. split.
    - unfold elem_not. apply Forall_forall. intros x Hx. apply in_map_iff in Hx. destruct Hx as (y & <- & _). apply wnot_range.
    - unfold elem_not. destruct l; [congruence|discriminate]. }
  assert (safe P n refs [a] (let! c := (let! l := reads (fun st => bi_slice st a) in new_slice dbg (elem_not 64 l) (is_negative a)) in
     let! _ := bi_drop a in ret c) one nonnz) as S2.
  { eapply safe_bind; [eapply (safe_frame P (n-1) n _ refs [] [a]); [exact S|cbn [length]; lia|]|].
    - intros x Hx. exact Hx.
    - intros c Nc. cbn beta. eapply safe_bind; [apply (safe_drop_in P n refs a) with (rest := [c]); apply perm_swap|].
      intros u _. apply (safe_ret P n refs c one). exact Nc. }
  intros r st' E. eapply S2; eauto. rewrite mbind_assoc. exact E.
Qed.

Lemma safe_neg P n refs a : safe P n refs [a] (ret (bi_neg a)) one (fun c => c = bi_neg a).
Proof.
  intros st hs Hc Hr Hi r st' E. unfold ret in E. assert (r = bi_neg a) as -> by congruence. assert (st' = st) as -> by congruence.
  destruct (con_neg P st hs a Hc) as [C _]. cbn. split; auto. split; [apply keeps_refl|reflexivity].
Qed.

Lemma safe_abs P n refs a : safe P n refs [a] (ret (bi_abs a)) one nonnz.
Proof.
  intros st hs Hc Hr Hi r st' E.
  assert (0 <= a) as H0. { destruct (con_slice P st ([a] ++ hs) a Hc ltac:(left; auto)) as (l & _ & _ & _ & _ & _ & _ & H0). auto. }
  unfold bi_abs in E. rewrite is_negative_odd in E. destruct (Z.odd a) eqn:Eo.
  - destruct (safe_neg P n refs a st hs Hc Hr Hi r st' E) as (C & K & ->). split; auto. split; auto.
    intros Hn. apply bi_neg_neg_zero in Hn; auto. subst a. discriminate Eo.
  - destruct (safe_ret P n refs a one any I st hs Hc Hr Hi r st' E) as (C & K & _). split; auto. split; auto.
    unfold ret in E. assert (r = a) as -> by congruence. intros ->. discriminate Eo.
Qed.

Lemma safe_neg_ref P n refs dbg a : 0 <= n -> In a refs -> safe P n refs [] (bi_neg_ref dbg a) one any.
Proof.
  intros Hn Ha. unfold bi_neg_ref. eapply safe_bind; [apply safe_clone; auto|]. intros c _.
  eapply safe_weaken; [apply (safe_neg P n refs c)|lia|apply incl_refl|reflexivity|]. intros; split; [reflexivity|exact I].
Qed.

Lemma safe_try_from_val P n refs F dbg t a : std_ty t -> Z.of_nat (length F) + 1 <= n ->
  safe P n refs (a :: F) (bi_try_from_val dbg t a) (fun _ => F) any.
Proof.
  intros Ht Hn. unfold bi_try_from_val.
  eapply safe_bind0; [apply (safe_none P n refs []); [apply safe_try_from; auto; lia|cbn [length]; lia|intros x []]|].
  intros r _. eapply safe_bind; [apply (safe_drop_in P n refs a) with (rest := F); reflexivity|].
  intros u _. apply (safe_ret P n refs r (fun _ => F)). exact I.
Qed.

Lemma safe_from_checked P n refs F dbg t a : std_ty t -> Z.of_nat (length F) + 1 <= n ->
  safe P n refs (a :: F) (bi_from_checked dbg t a) (fun _ => F) any.
Proof.
  intros Ht Hn. unfold bi_from_checked. eapply safe_bind; [apply (safe_try_from_val P n refs F); auto|].
  intros r _. apply (safe_ret P n refs _ (fun _ => F)). exact I.
Qed.

Lemma safe_saturate P n refs dbg t a : std_ty t -> 1 <= n ->
  safe P n refs [a] (bi_saturate dbg t a) none any.
Proof.
  intros Ht Hn. unfold bi_saturate. eapply safe_bind; [apply (safe_try_from_val P n refs []); auto|].
  intros r _. apply safe_ret0. exact I.
Qed.

Lemma safe_truncate P n refs dbg t a : std_ty t -> 1 <= n ->
  safe P n refs [a] (bi_truncate dbg t a) none any.
Proof.
  intros Ht Hn. unfold bi_truncate. eapply safe_bind0; [apply (safe_reads P n refs [a])|]. intros l _.
  eapply safe_bind0 with (Q1 := any); [apply safe_lift; intros; exact I|]. intros o _.
  eapply safe_bind0 with (Q1 := any); [apply safe_lift; intros; exact I|]. intros r _.
  eapply safe_bind; [apply (safe_drop_in P n refs a) with (rest := []); reflexivity|]. intros u _. apply safe_ret0. exact I.
Qed.

Lemma safe_timeout {A} P n refs ins o (Q : A -> Prop) : safe P n refs ins (fun _ => Timeout) o Q.
Proof. intros st hs _ _ _ r st' E. discriminate E. Qed.

Lemma safe_in {A} P n refs ins ins' (m : M A) o Q : safe P n refs ins m o Q -> Permutation ins ins' ->
  safe P n refs ins' m o Q.
Proof.
  intros H Hp. eapply safe_weaken; [exact H|lia|apply incl_refl|exact Hp|].
  intros a q. split; [reflexivity|exact q].
Qed.

Lemma safe_pow_loop dbg P n refs self : 8 <= n -> forall fuel rhs out,
  (nonnz self -> nonnz out) ->
  safe P n refs [self; rhs; out] (bi_pow_loop dbg fuel self rhs out) (fun p => [self; fst p; snd p]) (fun p => nonnz self -> nonnz (snd p)).
Proof.
  intros Hn. induction fuel as [|fuel IH]; intros rhs out No; cbn [bi_pow_loop]; [apply safe_timeout|].
  eapply safe_bind0; [apply (safe_none P n refs []); [apply safe_cmp_int; [lia|apply std_i32|reflexivity]|cbn [length]; lia|intros x []]|].
  intros c _. destruct c.
  1,2: apply (safe_ret P n refs (rhs, out) (fun p => [self; fst p; snd p])); exact No.
  eapply safe_bind; [apply (safe_new P n refs [self]); [apply safe_clone; [lia|left; auto]|cbn [length]; lia|intros x [<-|[]]; left; auto]|].
  intros s _. cbn beta.
  eapply safe_bind.
  { eapply safe_in; [apply (safe_by_val bi_mul P n refs [self; rhs] dbg out s safe_mul); cbn [length]; lia|].
    perm. }
  intros out' No'. cbn beta.
  eapply safe_bind.
  { eapply safe_in; [apply (safe_op_int bi_sub P n refs [self; out'] dbg t_i32 rhs 1 safe_sub); [cbn [length]; lia|apply std_i32|reflexivity]|].
    perm. }
  intros rhs' _. cbn beta.
  eapply safe_in; [apply IH; intros _; exact No'|].
  perm.
Qed.

Lemma safe_pow P n refs dbg fuel self rhs : 8 <= n -> safe P n refs [self; rhs] (bi_pow dbg fuel self rhs) one (fun c => nonnz self -> nonnz c).
Proof.
  intros Hn. unfold bi_pow.
  eapply safe_bind0; [apply (safe_reads P n refs [self; rhs])|]. intros z _. destruct z.
  - eapply safe_bind; [apply (safe_new P n refs []) with (F := [self; rhs]); [apply safe_from; [lia|apply std_i32|reflexivity]|cbn [length]; lia|intros x []]|].
    intros o No. cbn beta.
    eapply safe_bind; [apply (safe_drop_in P n refs rhs) with (rest := [o; self]); perm|]. intros u _. cbn beta.
    eapply safe_bind; [apply (safe_drop_in P n refs self) with (rest := [o]); perm|]. intros u2 _. cbn beta.
    apply (safe_ret P n refs o one). intros _. exact No.
  - eapply safe_bind; [apply (safe_new P n refs [self]) with (F := [self; rhs]); [apply safe_clone; [lia|left; auto]|cbn [length]; lia|intros x [<-|[]]; left; auto]|].
    intros o Eo. cbn beta.
    eapply safe_bind.
    { eapply safe_in; [apply (safe_pow_loop dbg P n refs self Hn fuel rhs o); intros; rewrite Eo; auto|perm]. }
    intros [rhs' o'] No'. cbn [fst snd].
    eapply safe_bind; [apply (safe_drop_in P n refs rhs') with (rest := [o'; self]); perm|]. intros u _. cbn beta.
    eapply safe_bind; [apply (safe_drop_in P n refs self) with (rest := [o']); perm|]. intros u2 _. cbn beta.
    apply (safe_ret P n refs o' one). exact No'.
Qed.

Lemma safe_digits dbg P n refs b : 8 <= n -> in_range t_usize b = true -> forall fuel scratch ds,
  safe P n refs [scratch] (bi_digits dbg fuel b scratch ds) none any.
Proof.
  intros Hn Hb. induction fuel as [|fuel IH]; intros scratch ds; cbn [bi_digits]; [apply safe_timeout|].
  eapply safe_bind0; [apply (safe_none P n refs []); [apply safe_cmp_int; [lia|apply std_i32|reflexivity]|cbn [length]; lia|intros x []]|].
  intros c _.
  assert (safe P n refs [scratch] (let! _ := bi_drop scratch in ret ds) none any) as Sd.
  { eapply safe_bind; [apply (safe_drop_in P n refs scratch) with (rest := []); perm|]. intros u _. apply safe_ret0. exact I. }
  destruct c; auto.
  eapply safe_bind; [apply (safe_new P n refs [scratch]) with (F := [scratch]); [apply safe_clone; [lia|left; auto]|cbn [length]; lia|intros x [<-|[]]; left; auto]|].
  intros s _. cbn beta.
  eapply safe_bind; [apply (safe_op_int bi_rem P n refs [scratch] dbg t_usize s b safe_rem); [cbn [length]; lia|apply std_usize|exact Hb]|].
  intros m _. cbn beta.
  eapply safe_bind; [apply (safe_from_checked P n refs [scratch] dbg t_u8 m); [apply std_u8|cbn [length]; lia]|].
  intros o _. cbn beta.
  eapply safe_bind0 with (Q1 := any); [apply safe_lift; intros; exact I|]. intros d _.
  eapply safe_bind; [apply (safe_op_int bi_div P n refs [] dbg t_usize scratch b safe_div); [cbn [length]; lia|apply std_usize|exact Hb]|].
  intros s' _. cbn beta. apply IH.
Qed.

Lemma safe_write_base dbg P n refs fuel a b chars : 8 <= n -> In a refs -> in_range t_usize b = true ->
  safe P n refs [] (bi_write_base dbg fuel a b chars) none any.
Proof.
  intros Hn Ha Hb. unfold bi_write_base.
  eapply safe_bind; [apply safe_clone; [lia|auto]|]. intros s _.
  eapply safe_bind with (o1 := none); [apply safe_digits; auto|]. intros ds _.
  apply (safe_lift P n refs []). intros; exact I.
Qed.

Lemma safe_parse_loop dbg P n refs radix : 8 <= n -> in_range t_u32 radix = true -> forall s out, nonnz out ->
  safe P n refs [out] (bi_parse_loop dbg radix s out) (fun r => match r with inl c => [c] | inr _ => [] end) (fun r => match r with inl c => nonnz c | inr _ => True end).
Proof.
  intros Hn Hr. induction s as [|c s IH]; intros out No; cbn [bi_parse_loop].
  - apply (safe_ret P n refs (inl out) (fun r => match r with inl c => [c] | inr _ => [] end)). exact No.
  - destruct (val_from_char c radix) as [d|e] eqn:Ed.
    + assert (in_range t_u32 d = true) as Hd.
      { unfold val_from_char in Ed. destruct (radix <=? 36) eqn:E36; [|discriminate].
        destruct (char_pos c (firstn (Z.to_nat radix) insens_chars) 0) as [d'|] eqn:Ep; [|discriminate].
        assert (d = d') as -> by congruence. apply in_range_iff.
        assert (forall cs i, char_pos c cs i = Some d' -> i <= d' < i + Z.of_nat (length cs)) as H.
        { clear. induction cs as [|c2 cs IH]; intros i; cbn [char_pos length]; [discriminate|].
          destruct (c2 =? ascii_lower c). - intros Q. assert (i = d') by congruence. lia.
          - intros Q. apply IH in Q. lia. }
        apply H in Ep. rewrite firstn_length in Ep. change (length insens_chars) with 36%nat in Ep.
        change (imin t_u32) with 0. change (imax t_u32) with 4294967295. lia. }
      eapply safe_bind; [apply (safe_op_int bi_mul P n refs [] dbg t_u32 out radix safe_mul); [cbn [length]; lia|apply std_u32|exact Hr]|].
      intros p _. cbn beta.
      eapply safe_bind; [apply (safe_op_int bi_add P n refs [] dbg t_u32 p d safe_add); [cbn [length]; lia|apply std_u32|exact Hd]|].
      intros o No'. cbn beta. apply IH. exact No'.
    + eapply safe_bind; [apply (safe_drop_in P n refs out) with (rest := []); perm|]. intros u _.
      apply (safe_ret P n refs (inr e) (fun r : Z + from_str_error => match r with inl c => [c] | inr _ => [] end)). exact I.
Qed.

Lemma safe_bi_new P n refs : safe P n refs [] (lift bi_new) one nonnz.
Proof.
  intros st hs Hc Hr Hi r st' E. destruct (bi_new_spec P st hs Hc) as (c & E1 & C & _ & N).
  unfold lift in E. rewrite E1 in E. cbn [bind] in E. assert (r = c) as -> by congruence. assert (st' = st) as -> by congruence.
  cbn. split; auto. split; [apply keeps_refl|exact N].
Qed.

Lemma safe_from_str_radix dbg P n refs s radix : 8 <= n -> in_range t_u32 radix = true ->
  safe P n refs [] (bi_from_str_radix dbg s radix) (fun r => match r with inl c => [c] | inr _ => [] end) (fun r => match r with inl c => nonnz c | inr _ => True end).
Proof.
  intros Hn Hr. unfold bi_from_str_radix. eapply safe_bind; [apply safe_bi_new|]. intros z Nz. apply safe_parse_loop; auto.
Qed.
