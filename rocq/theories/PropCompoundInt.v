(** C135, C136, C137: complex numbers, cross products and matrix products over the primitive integers. *)
From Coq Require Import ZArith List Bool Lia.
From Verif Require Import Base Words BitSliceModel PrimModel PrimProofs FixedModel StaticIterModel CompoundsSpec VectorModel
  VectorProofs MatrixModel MatrixProofs CompoundIntModel CompoundIntSpec.
Import ListNotations.
Local Open Scope Z_scope.

(** ** The fallible operations agree with those of VectorModel.v and MatrixModel.v *)

Section Agree.
Context {T : Type} (add sub mul div : T -> T -> T).
Let ok (op : T -> T -> T) := fun x y => Ret (op x y).
Lemma cf_agree a b s : cf_add (ok add) a b = Ret (c_add add a b) /\ cf_sub (ok sub) a b = Ret (c_sub sub a b) /\
  cf_mul (ok add) (ok sub) (ok mul) a b = Ret (c_mul add sub mul a b) /\
  cf_div (ok add) (ok sub) (ok mul) (ok div) a b = Ret (c_div add sub mul div a b) /\
  cf_add_scalar (ok add) a s = Ret (c_add_scalar add a s) /\ cf_sub_scalar (ok sub) a s = Ret (c_sub_scalar sub a s) /\
  cf_mul_scalar (ok mul) a s = Ret (c_mul_scalar mul a s) /\ cf_div_scalar (ok mul) (ok div) a s = Ret (c_div_scalar mul div a s).
Proof. repeat split. Qed.
Lemma crossf_agree a b : crossf (ok sub) (ok mul) a b = Ret (cross sub mul a b).
Proof. destruct a as [[? ?] ?], b as [[? ?] ?]. reflexivity. Qed.
Lemma matf_agree row col col2 a b : matf_mul (ok add) (ok mul) row col col2 a b = mat_mul add mul row col col2 a b.
Proof. reflexivity. Qed.
End Agree.

(** ** Chains of checked and of wrapping operations *)

Lemma fits_dec t v : {fits t v} + {~ fits t v}.
Proof. unfold fits. destruct (Z_le_dec (imin t) v), (Z_le_dec v (imax t)); auto; right; lia. Qed.

Lemma checked_in dbg t v : fits t v -> of_res (arith dbg t v) = Ret v.
Proof. intros H. rewrite arith_in by exact H. reflexivity. Qed.

Lemma checked_out t v : ~ fits t v -> of_res (arith true t v) = Pan.
Proof. intros H. rewrite arith_out by (unfold fits in H; lia). reflexivity. Qed.

Lemma rif_nil {A} t (r : A) : returns_if_fit t [] (Ret r) r.
Proof. split; auto. intros H. elim H. constructor. Qed.

Lemma rif_cons {A} t v vs (k : Z -> out A) r : returns_if_fit t vs (k v) r ->
  returns_if_fit t (v :: vs) (obind (of_res (arith true t v)) k) r.
Proof.
  intros [H1 H2]. split; intros H.
  - inversion H; subst. rewrite checked_in by auto. cbn. auto.
  - destruct (fits_dec t v) as [F|F]; [|rewrite checked_out by auto; reflexivity].
    rewrite checked_in by auto. cbn. apply H2. intros X. apply H. constructor; auto.
Qed.

Lemma rif_skip {A} t v vs (k : Z -> out A) r : fits t v -> returns_if_fit t vs (k v) r ->
  returns_if_fit t vs (obind (of_res (arith true t v)) k) r.
Proof. intros F H. rewrite checked_in by auto. exact H. Qed.

Lemma released t v : (0 < ibits t)%nat -> exists x, of_res (arith false t v) = Ret x /\ reduces_to t v x /\
  x mod 2 ^ Z.of_nat (ibits t) = v mod 2 ^ Z.of_nat (ibits t).
Proof.
  intros Hb. pose proof (two_pow_pos (ibits t)). exists (wrap t v).
  assert (of_res (arith false t v) = Ret (wrap t v)) as E.
  { destruct (fits_dec t v) as [F|F]; [rewrite checked_in, wrap_id by auto; auto|].
    rewrite arith_out by (unfold fits in F; lia). reflexivity. }
  split; auto. split; [|apply wrap_mod; auto]. split; [apply wrap_range; auto|].
  rewrite Zminus_mod, wrap_mod, Z.sub_diag by auto. apply Z.mod_0_l. lia.
Qed.

Lemma reduces_mod t v v' x : reduces_to t v' x -> v' mod 2 ^ Z.of_nat (ibits t) = v mod 2 ^ Z.of_nat (ibits t) -> reduces_to t v x.
Proof.
  intros [F E] M. split; auto. pose proof (two_pow_pos (ibits t)).
  replace (x - v) with ((x - v') + (v' - v)) by lia. rewrite Z.add_mod, E by lia.
  rewrite (Zminus_mod v' v), M, Z.sub_diag. reflexivity.
Qed.

(** ** C135: complex numbers *)

(** With overflow checks: exactly when every product, sum and difference of the textbook formulas fits,
    the textbook result. *)
Theorem C135_checked : forall t ar ai br bi s,
  returns_if_fit t [ar + br; ai + bi] (ci_add true t (Cx ar ai) (Cx br bi)) (Cx (ar + br) (ai + bi)) /\
  returns_if_fit t [ar - br; ai - bi] (ci_sub true t (Cx ar ai) (Cx br bi)) (Cx (ar - br) (ai - bi)) /\
  returns_if_fit t [ar * br; ai * bi; ar * br - ai * bi; ar * bi; br * ai; ar * bi + br * ai]
    (ci_mul true t (Cx ar ai) (Cx br bi)) (Cx (ar * br - ai * bi) (ar * bi + ai * br)) /\
  returns_if_fit t [ar + s] (ci_add_scalar true t (Cx ar ai) s) (Cx (ar + s) ai) /\
  returns_if_fit t [ar - s] (ci_sub_scalar true t (Cx ar ai) s) (Cx (ar - s) ai) /\
  returns_if_fit t [ar * s; ai * s] (ci_mul_scalar true t (Cx ar ai) s) (Cx (ar * s) (ai * s)).
Proof.
  intros t ar ai br bi s.
  unfold ci_add, ci_sub, ci_mul, ci_add_scalar, ci_sub_scalar, ci_mul_scalar, cf_add, cf_sub, cf_mul, cf_add_scalar,
    cf_sub_scalar, cf_mul_scalar, int_add, int_sub, int_mul. cbn [real imag].
  rewrite (Z.mul_comm ai br). do 5 (split; [repeat apply rif_cons; apply rif_nil|]). repeat apply rif_cons. apply rif_nil.
Qed.
Print Assumptions C135_checked.

(** Without overflow checks: always the textbook result, reduced. *)
Theorem C135_wrapping : forall t ar ai br bi s, (0 < ibits t)%nat ->
  (exists r i, ci_add false t (Cx ar ai) (Cx br bi) = Ret (Cx r i) /\ reduces_to t (ar + br) r /\ reduces_to t (ai + bi) i) /\
  (exists r i, ci_sub false t (Cx ar ai) (Cx br bi) = Ret (Cx r i) /\ reduces_to t (ar - br) r /\ reduces_to t (ai - bi) i) /\
  (exists r i, ci_mul false t (Cx ar ai) (Cx br bi) = Ret (Cx r i) /\ reduces_to t (ar * br - ai * bi) r /\
     reduces_to t (ar * bi + ai * br) i) /\
  (exists r, ci_add_scalar false t (Cx ar ai) s = Ret (Cx r ai) /\ reduces_to t (ar + s) r) /\
  (exists r, ci_sub_scalar false t (Cx ar ai) s = Ret (Cx r ai) /\ reduces_to t (ar - s) r) /\
  (exists r i, ci_mul_scalar false t (Cx ar ai) s = Ret (Cx r i) /\ reduces_to t (ar * s) r /\ reduces_to t (ai * s) i).
Proof.
  intros t ar ai br bi s Hb.
  unfold ci_add, ci_sub, ci_mul, ci_add_scalar, ci_sub_scalar, ci_mul_scalar, cf_add, cf_sub, cf_mul, cf_add_scalar,
    cf_sub_scalar, cf_mul_scalar, int_add, int_sub, int_mul. cbn [real imag].
  split; [|split; [|split; [|split; [|split]]]].
  - destruct (released t (ar + br) Hb) as (r & -> & R & _), (released t (ai + bi) Hb) as (i & -> & I & _). cbn. eauto.
  - destruct (released t (ar - br) Hb) as (r & -> & R & _), (released t (ai - bi) Hb) as (i & -> & I & _). cbn. eauto.
  - destruct (released t (ar * br) Hb) as (p1 & -> & _ & E1), (released t (ai * bi) Hb) as (p2 & -> & _ & E2),
      (released t (ar * bi) Hb) as (q1 & -> & _ & E3), (released t (br * ai) Hb) as (q2 & -> & _ & E4). cbn.
    destruct (released t (p1 - p2) Hb) as (r & -> & R & _), (released t (q1 + q2) Hb) as (i & -> & I & _). cbn.
    exists r, i. split; auto. split; eapply reduces_mod; eauto.
    + rewrite Zminus_mod, E1, E2, <- Zminus_mod. reflexivity.
    + rewrite Zplus_mod, E3, E4, <- Zplus_mod. f_equal. ring.
  - destruct (released t (ar + s) Hb) as (r & -> & R & _). cbn. eauto.
  - destruct (released t (ar - s) Hb) as (r & -> & R & _). cbn. eauto.
  - destruct (released t (ar * s) Hb) as (r & -> & R & _), (released t (ai * s) Hb) as (i & -> & I & _). cbn. eauto.
Qed.
Print Assumptions C135_wrapping.

Lemma int_div_pos t x y : 0 < y -> int_div t x y = Ret (Z.quot x y).
Proof.
  intros H. unfold int_div, prim_div. rewrite (proj2 (Z.eqb_neq y 0)), (proj2 (Z.eqb_neq y (-1))), andb_false_r by lia. reflexivity.
Qed.

(** The intermediate values of a quotient. *)
Definition div_values (ar ai br bi : Z) : list Z :=
  [br * br; bi * bi; br * br + bi * bi; ar * br; ai * bi; ar * br + ai * bi; ai * br; ar * bi; ai * br - ar * bi].

(** Quotients: by zero, a panic in every build.  Otherwise, if every intermediate value fits, both parts of the
    exact quotient rounded toward zero, in every build; if one does not, a panic with overflow checks. *)
Theorem C135_quotient : forall dbg t ar ai br bi, (0 < ibits t)%nat ->
  (br = 0 -> bi = 0 -> ci_div dbg t (Cx ar ai) (Cx br bi) = Pan) /\
  (br <> 0 \/ bi <> 0 -> Forall (fits t) (div_values ar ai br bi) ->
     ci_div dbg t (Cx ar ai) (Cx br bi)
     = Ret (Cx (Z.quot (ar * br + ai * bi) (br * br + bi * bi)) (Z.quot (ai * br - ar * bi) (br * br + bi * bi)))) /\
  (~ Forall (fits t) (div_values ar ai br bi) -> ci_div true t (Cx ar ai) (Cx br bi) = Pan).
Proof.
  intros dbg t ar ai br bi Hb. unfold ci_div, cf_div, int_add, int_sub, int_mul. cbn [real imag].
  assert (fits t 0) as F0 by (apply imin_le0; auto).
  split; [|split].
  - intros -> ->. rewrite !Z.mul_0_r. rewrite !(checked_in dbg t 0 F0). cbn [obind]. rewrite (checked_in dbg t (0 + 0) F0).
    cbn [obind]. rewrite ?(checked_in dbg t 0 F0). cbn [obind]. rewrite ?(checked_in dbg t (0 + 0) F0). reflexivity.
  - intros N F. unfold div_values in F. repeat (apply Forall_cons_iff in F; destruct F as [? F]).
    assert (0 < br * br + bi * bi) by nia.
    repeat (rewrite checked_in by assumption; cbn [obind]). rewrite int_div_pos by lia. cbn [obind].
    repeat (rewrite checked_in by assumption; cbn [obind]). rewrite int_div_pos by lia. reflexivity.
  - intros N. assert (forall v (k : Z -> out (complex Z)), (fits t v -> k v = Pan) -> obind (of_res (arith true t v)) k = Pan) as S.
    { intros v k H. destruct (fits_dec t v); [rewrite checked_in by auto; cbn; auto|rewrite checked_out by auto; reflexivity]. }
    do 6 (apply S; intro).
    destruct (Z.eq_dec (br * br + bi * bi) 0) as [E|E]; [rewrite E; reflexivity|].
    assert (0 < br * br + bi * bi) by nia. rewrite int_div_pos by lia. cbn [obind].
    do 3 (apply S; intro). exfalso. apply N. unfold div_values. repeat (constructor; auto).
Qed.
Print Assumptions C135_quotient.

(** Dividing a product by one of its factors gives the other, when no intermediate value overflows. *)
Theorem C135_product_quotient : forall dbg t ar ai br bi, (0 < ibits t)%nat -> br <> 0 \/ bi <> 0 ->
  let pr := ar * br - ai * bi in let pi := ar * bi + ai * br in
  Forall (fits t) [ar * br; ai * bi; pr; ar * bi; br * ai; pi] -> Forall (fits t) (div_values pr pi br bi) ->
  obind (ci_mul dbg t (Cx ar ai) (Cx br bi)) (fun p => ci_div dbg t p (Cx br bi)) = Ret (Cx ar ai).
Proof.
  intros dbg t ar ai br bi Hb N pr pi F1 F2.
  assert (ci_mul dbg t (Cx ar ai) (Cx br bi) = Ret (Cx pr pi)) as ->.
  { repeat (apply Forall_cons_iff in F1; destruct F1 as [? F1]).
    unfold ci_mul, cf_mul, int_add, int_sub, int_mul. cbn [real imag].
    assert (ar * bi + br * ai = pi) as E by (unfold pi; ring).
    repeat (rewrite checked_in by assumption; cbn [obind]). rewrite E. rewrite checked_in by assumption. reflexivity. }
  cbn [obind]. rewrite (proj1 (proj2 (C135_quotient dbg t pr pi br bi Hb)) N F2).
  assert (0 < br * br + bi * bi) by nia.
  replace (pr * br + pi * bi) with (ar * (br * br + bi * bi)) by (unfold pr, pi; ring).
  replace (pi * br - pr * bi) with (ai * (br * br + bi * bi)) by (unfold pr, pi; ring).
  rewrite !Z.quot_mul by lia. reflexivity.
Qed.
Print Assumptions C135_product_quotient.

Example C135_demo : let t := {| ibits := 8; isigned := true |} in
  ci_mul true t (Cx 3 (-4)) (Cx 2 5) = Ret (Cx 26 7) /\ ci_div true t (Cx 26 7) (Cx 2 5) = Pan /\
  ci_div true {| ibits := 16; isigned := true |} (Cx 26 7) (Cx 2 5) = Ret (Cx 3 (-4)) /\
  ci_mul true t (Cx 30 0) (Cx 5 0) = Pan /\ ci_mul false t (Cx 30 0) (Cx 5 0) = Ret (Cx (-106) 0) /\
  Forall (fits {| ibits := 16; isigned := true |}) (div_values 26 7 2 5).
Proof. split; [|split; [|split; [|split; [|split]]]]; try (vm_compute; reflexivity). repeat constructor; vm_compute; discriminate. Qed.

(** ** C136: division by a scalar *)

(** When the square of the scalar and its products with both parts fit, both parts are divided. *)
Theorem C136_fits_partial : forall dbg t ar ai s, (0 < ibits t)%nat -> s <> 0 -> Forall (fits t) [s * s; ar * s; ai * s] ->
  ci_div_scalar dbg t (Cx ar ai) s = Ret (Cx (Z.quot ar s) (Z.quot ai s)).
Proof.
  intros dbg t ar ai s Hb N F. repeat (apply Forall_cons_iff in F; destruct F as [? F]).
  unfold ci_div_scalar, cf_div_scalar, int_mul. cbn [real imag]. assert (0 < s * s) by nia.
  rewrite checked_in by assumption. cbn [obind]. rewrite checked_in by assumption. cbn [obind]. rewrite int_div_pos by lia. cbn [obind].
  rewrite checked_in by assumption. cbn [obind]. rewrite int_div_pos by lia. cbn [obind].
  rewrite !Z.quot_mul_cancel_r by lia. reflexivity.
Qed.
Print Assumptions C136_fits_partial.

(** With overflow checks every other division panics. *)
Theorem C136_overflow_partial : forall t ar ai s, (0 < ibits t)%nat ->
  s = 0 \/ ~ Forall (fits t) [s * s; ar * s; ai * s] -> ci_div_scalar true t (Cx ar ai) s = Pan.
Proof.
  intros t ar ai s Hb H. unfold ci_div_scalar, cf_div_scalar, int_mul. cbn [real imag].
  assert (forall v (k : Z -> out (complex Z)), (fits t v -> k v = Pan) -> obind (of_res (arith true t v)) k = Pan) as S.
  { intros v k X. destruct (fits_dec t v); [rewrite checked_in by auto; cbn; auto|rewrite checked_out by auto; reflexivity]. }
  apply S; intro. apply S; intro. destruct (Z.eq_dec s 0) as [->|E]; [reflexivity|].
  rewrite int_div_pos by nia. cbn [obind]. apply S; intro. exfalso. destruct H as [H|H]; [lia|]. apply H. repeat (constructor; auto).
Qed.
Print Assumptions C136_overflow_partial.

(** Without overflow checks, for all operands: the square of the scalar and the products are reduced
    modulo 2^bits before the division, which panics exactly if the reduced square is zero. *)
Theorem C136_unchecked_partial : forall t ar ai s, (1 < ibits t)%nat ->
  exists d x y, reduces_to t (s * s) d /\ reduces_to t (ar * s) x /\ reduces_to t (ai * s) y /\
    ci_div_scalar false t (Cx ar ai) s = (if d =? 0 then Pan else Ret (Cx (Z.quot x d) (Z.quot y d))) /\
    (d = 0 <-> (s * s) mod 2 ^ Z.of_nat (ibits t) = 0).
Proof.
  intros t ar ai s Hb. destruct (released t (s * s)) as (d & Ed & Rd & _); [lia|]. destruct (released t (ar * s)) as (x & Ex & Rx & _); [lia|].
  destruct (released t (ai * s)) as (y & Ey & Ry & _); [lia|]. exists d, x, y. split; [auto|]. split; [auto|]. split; [auto|].
  assert (forall k, d <> 4 * k - 1) as N.
  { intros k ->. destruct Rd as [_ M]. apply Z.mod_divide in M; [|apply Z.pow_nonzero; lia]. destruct M as (q & M).
    replace (Z.of_nat (ibits t)) with (2 + Z.of_nat (ibits t - 2)) in M by lia. rewrite Z.pow_add_r in M by lia. change (2 ^ 2) with 4 in M.
    set (w := q * 2 ^ Z.of_nat (ibits t - 2)). assert (4 * k - 1 - s * s = 4 * w) as M' by (unfold w; lia). clearbody w.
    destruct (Z.Even_or_Odd s) as [(h & ->)|(h & ->)]; lia. }
  split.
  - unfold ci_div_scalar, cf_div_scalar, int_mul. cbn [real imag]. rewrite Ed. cbn [obind]. rewrite Ex. cbn [obind].
    unfold int_div, prim_div. destruct (Z.eqb_spec d 0) as [->|D]; [reflexivity|].
    rewrite (proj2 (Z.eqb_neq d (-1))) by (intros ->; apply (N 0); reflexivity). rewrite !andb_false_r. cbn [of_res obind].
    rewrite Ey. cbn [obind]. rewrite andb_false_r. reflexivity.
  - destruct Rd as [F M]. unfold fits in F. split.
    + intros ->. rewrite Z.sub_0_l in M. rewrite <- (Z.opp_involutive (s * s)). apply Z_mod_zero_opp_full. auto.
    + intros Z0. assert (d mod 2 ^ Z.of_nat (ibits t) = 0) as D.
      { replace d with ((d - s * s) + s * s) by ring. rewrite Z.add_mod, M, Z0 by (apply Z.pow_nonzero; lia). apply Zmod_0_l. }
      assert (0 < 2 ^ Z.of_nat (ibits t)) as P by (apply Z.pow_pos_nonneg; lia).
      assert (- 2 ^ Z.of_nat (ibits t) < d < 2 ^ Z.of_nat (ibits t)) as B.
      { assert (2 ^ Z.of_nat (ibits t) = 2 * 2 ^ (Z.of_nat (ibits t) - 1)) as E by (rewrite <- Z.pow_succ_r by lia; f_equal; lia).
        assert (0 < 2 ^ (Z.of_nat (ibits t) - 1)) by (apply Z.pow_pos_nonneg; lia).
        unfold imin, imax in F. destruct (isigned t); lia. }
      apply Z.mod_divide in D; [|lia]. destruct D as (q & Q). revert P B Q. generalize (2 ^ Z.of_nat (ibits t)). intros z P B ->.
      assert (q = 0) as -> by nia. ring.
Qed.
Print Assumptions C136_unchecked_partial.

Example C136_unchecked_demo : let t := {| ibits := 8; isigned := true |} in
  ci_div_scalar false t (Cx 100 (-7)) 20 = Ret (Cx (Z.quot (-48) (-112)) (Z.quot 116 (-112))) /\
  reduces_to t (20 * 20) (-112) /\ reduces_to t (100 * 20) (-48) /\ reduces_to t (-7 * 20) 116.
Proof. vm_compute. repeat split; (reflexivity || discriminate). Qed.

(** Overflow although both quotients are small numbers: a panic, a wrong result, and a division by zero. *)
Theorem C136_refuted : let t := {| ibits := 8; isigned := true |} in
  ci_div_scalar true t (Cx 100 0) 20 = Pan /\ ci_div_scalar false t (Cx 100 0) 20 = Ret (Cx 0 0) /\
  ci_div_scalar false t (Cx 100 0) 16 = Pan /\ Z.quot 100 20 = 5.
Proof. vm_compute. repeat split; reflexivity. Qed.
Print Assumptions C136_refuted.

Example C136_demo : ci_div_scalar true {| ibits := 8; isigned := true |} (Cx 17 (-9)) 4 = Ret (Cx 4 (-2)) /\
  Forall (fits {| ibits := 8; isigned := true |}) [4 * 4; 17 * 4; -9 * 4].
Proof. split; [vm_compute; reflexivity|]. repeat constructor; vm_compute; discriminate. Qed.

(** ** C137: cross products and matrix products *)

Theorem C137_cross : forall t ax ay az bx by_ bz, (0 < ibits t)%nat ->
  let x := ay * bz - az * by_ in let y := az * bx - ax * bz in let z := ax * by_ - ay * bx in
  returns_if_fit t [ay * bz; az * by_; az * bx; ax * bz; ax * by_; ay * bx; x; y; z]
    (crossi true t (ax, ay, az) (bx, by_, bz)) (x, y, z) /\
  exists x' y' z', crossi false t (ax, ay, az) (bx, by_, bz) = Ret (x', y', z') /\
    reduces_to t x x' /\ reduces_to t y y' /\ reduces_to t z z'.
Proof.
  intros t ax ay az bx by_ bz Hb x y z. unfold crossi, crossf, int_sub, int_mul. split.
  - repeat apply rif_cons. apply rif_nil.
  - destruct (released t (ay * bz) Hb) as (x1 & -> & _ & E1), (released t (az * by_) Hb) as (x2 & -> & _ & E2),
      (released t (az * bx) Hb) as (y1 & -> & _ & E3), (released t (ax * bz) Hb) as (y2 & -> & _ & E4),
      (released t (ax * by_) Hb) as (z1 & -> & _ & E5), (released t (ay * bx) Hb) as (z2 & -> & _ & E6). cbn.
    destruct (released t (x1 - x2) Hb) as (x' & -> & X & _), (released t (y1 - y2) Hb) as (y' & -> & Y & _),
      (released t (z1 - z2) Hb) as (z' & -> & Z' & _). cbn. exists x', y', z'. split; auto.
    split; [|split]; eapply reduces_mod; eauto; rewrite Zminus_mod, ?E1, ?E2, ?E3, ?E4, ?E5, ?E6, <- Zminus_mod; reflexivity.
Qed.
Print Assumptions C137_cross.

Lemma elt_at row col m i j : shape row col m -> (i < row)%nat -> (j < col)%nat -> at_ 0 m i j = elt m i j.
Proof.
  intros S Hi Hj. unfold at_, elt, entry. destruct (shape_row _ _ _ i S Hi) as (r & E & L). rewrite E.
  rewrite (nth_error_nth m i [] E). rewrite (nth_error_nth' r 0) by lia. reflexivity.
Qed.

(** One entry of the product. *)
Definition entry_prog (dbg : bool) (t : ity) (col : nat) (a b : list (list Z)) (i j : nat) : out Z :=
  obind (mat_get a i 0) (fun x => obind (mat_get b 0 j) (fun y =>
    fold_left (fun acc k => obind acc (fun acc =>
      obind (mat_get a i k) (fun x => obind (mat_get b k j) (fun y => obind (int_mul dbg t x y) (fun p => int_add dbg t acc p)))))
      (seq 1 (col - 1)) (int_mul dbg t x y))).

Definition term (a b : list (list Z)) (i j k : nat) : Z := elt a i k * elt b k j.

Section Entry.
Context (t : ity) (row col col2 : nat) (a b : list (list Z)) (i j : nat).
Hypothesis (Sa : shape row col a) (Sb : shape col col2 b) (Hi : (i < row)%nat) (Hj : (j < col2)%nat) (Hc : (0 < col)%nat).

Lemma entry_step dbg k acc : (k < col)%nat ->
  (obind (mat_get a i k) (fun x => obind (mat_get b k j) (fun y => obind (int_mul dbg t x y) (fun p => int_add dbg t acc p))))
  = obind (of_res (arith dbg t (term a b i j k))) (fun p => of_res (arith dbg t (acc + p))).
Proof.
  intros Hk. rewrite (mat_get_at 0 row col a i k Sa Hi Hk), (mat_get_at 0 col col2 b k j Sb Hk Hj). cbn [obind].
  rewrite (elt_at row col), (elt_at col col2) by auto. reflexivity.
Qed.

Definition good (k : nat) : Prop := fits t (term a b i j k) /\ fits t (first_sum (term a b i j) (S k)).

Lemma entry_checked : ((forall k, (k < col)%nat -> good k) -> entry_prog true t col a b i j = Ret (first_sum (term a b i j) col)) /\
  ((exists k, (k < col)%nat /\ ~ good k) -> entry_prog true t col a b i j = Pan).
Proof.
  unfold entry_prog. rewrite (mat_get_at 0 row col a i 0 Sa Hi Hc), (mat_get_at 0 col col2 b 0 j Sb Hc Hj). cbn [obind].
  rewrite (elt_at row col), (elt_at col col2) by auto. change (int_mul true t (elt a i 0) (elt b 0 j)) with (of_res (arith true t (term a b i j 0))).
  assert (forall n s (f : out Z -> nat -> out Z), (forall k, f Pan k = Pan) -> fold_left f (seq s n) Pan = Pan) as FP.
  { induction n; intros s f H; cbn; auto. rewrite H. auto. }
  assert (forall n s, (0 < s)%nat -> (s + n = col)%nat ->
    let go := fold_left (fun acc k => obind acc (fun acc =>
      obind (mat_get a i k) (fun x => obind (mat_get b k j) (fun y => obind (int_mul true t x y) (fun p => int_add true t acc p)))))
      (seq s n) (Ret (first_sum (term a b i j) s)) in
    ((forall k, (s <= k < col)%nat -> good k) -> go = Ret (first_sum (term a b i j) col)) /\
    ((exists k, (s <= k < col)%nat /\ ~ good k) -> go = Pan)) as G.
  { induction n; intros s Hs E; cbv zeta.
    - assert (s = col) as -> by lia. cbn. split; auto. intros (k & ? & _). lia.
    - cbn [seq fold_left]. cbn [obind]. rewrite entry_step by lia. specialize (IHn (S s) ltac:(lia) ltac:(lia)). cbv zeta in IHn.
      destruct (fits_dec t (term a b i j s)) as [F1|F1].
      + rewrite checked_in by auto. cbn [obind]. change (first_sum (term a b i j) s + term a b i j s) with (first_sum (term a b i j) (S s)).
        destruct (fits_dec t (first_sum (term a b i j) (S s))) as [F2|F2].
        * rewrite checked_in by auto. split.
          -- intros H. apply IHn. intros k Hk. apply H. lia.
          -- intros (k & Hk & B). apply IHn. exists k. split; auto. destruct (Nat.eq_dec k s) as [->|]; [|lia]. elim B. split; auto.
        * rewrite checked_out by auto. rewrite FP by reflexivity. split; auto. intros H. elim F2. apply (H s). lia.
      + rewrite checked_out by auto. cbn [obind]. rewrite FP by reflexivity. split; auto. intros H. elim F1. apply (H s). lia. }
  destruct (fits_dec t (term a b i j 0)) as [F|F].
  - rewrite checked_in by auto. destruct (G (col - 1)%nat 1%nat ltac:(lia) ltac:(lia)) as [G1 G2]. cbn [first_sum] in G1, G2.
    rewrite Z.add_0_l in G1, G2. split.
    + intros H. apply G1. intros. apply H. lia.
    + intros (k & Hk & B). apply G2. exists k. split; auto. destruct (Nat.eq_dec k 0) as [->|]; [|lia]. elim B. split; auto.
  - rewrite checked_out by auto. rewrite FP by reflexivity. split; auto. intros H. elim F. apply (H 0%nat). lia.
Qed.

Lemma entry_wrapping : (0 < ibits t)%nat -> exists x, entry_prog false t col a b i j = Ret x /\ reduces_to t (first_sum (term a b i j) col) x.
Proof.
  intros Hb. unfold entry_prog. rewrite (mat_get_at 0 row col a i 0 Sa Hi Hc), (mat_get_at 0 col col2 b 0 j Sb Hc Hj). cbn [obind].
  rewrite (elt_at row col), (elt_at col col2) by auto. change (int_mul false t (elt a i 0) (elt b 0 j)) with (of_res (arith false t (term a b i j 0))).
  assert (forall n s acc, (0 < s)%nat -> (s + n = col)%nat -> reduces_to t (first_sum (term a b i j) s) acc ->
    exists x, fold_left (fun acc k => obind acc (fun acc =>
      obind (mat_get a i k) (fun x => obind (mat_get b k j) (fun y => obind (int_mul false t x y) (fun p => int_add false t acc p)))))
      (seq s n) (Ret acc) = Ret x /\ reduces_to t (first_sum (term a b i j) col) x) as G.
  { induction n; intros s acc Hs E R.
    - assert (s = col) as -> by lia. cbn. eauto.
    - cbn [seq fold_left]. cbn [obind]. rewrite entry_step by lia.
      destruct (released t (term a b i j s) Hb) as (p & -> & R1 & _). cbn [obind].
      destruct (released t (acc + p) Hb) as (q & -> & R2 & _). apply IHn; [lia|lia|].
      destruct R as [_ R], R1 as [_ R1], R2 as [F2 R2]. split; auto. cbn [first_sum]. pose proof (two_pow_pos (ibits t)).
      replace (q - (first_sum (term a b i j) s + term a b i j s)) with ((q - (acc + p)) + (acc - first_sum (term a b i j) s) + (p - term a b i j s)) by lia.
      rewrite Z.add_mod, R1, (Z.add_mod (q - (acc + p))), R2, R by lia. reflexivity. }
  destruct (released t (term a b i j 0) Hb) as (p & -> & R1 & _). apply (G (col - 1)%nat 1%nat p); [lia|lia|].
  cbn [first_sum]. rewrite Z.add_0_l. exact R1.
Qed.
End Entry.

Lemma from_fn_pan {T} n (f : nat -> out T) : (forall i, (i < n)%nat -> f i <> UB) -> (exists i, (i < n)%nat /\ f i = Pan) -> from_fn n f = Pan.
Proof.
  unfold from_fn. intros NU (i & Hi & E).
  assert (forall n k, (forall i, (k <= i < k + n)%nat -> f i <> UB) -> (exists i, (k <= i < k + n)%nat /\ f i = Pan) ->
    array_map f (seq k n) = Pan) as G.
  { clear. induction n; intros k NU (i & Hi & E); [lia|]. cbn [seq array_map].
    destruct (f k) eqn:Ek; cbn [obind]; auto.
    - rewrite IHn; auto; [intros; apply NU; lia|]. exists i. split; auto. destruct (Nat.eq_dec i k) as [->|]; [congruence|lia].
    - elim (NU k); auto. lia. }
  apply G; [intros; apply NU; lia|]. exists i. split; auto. lia.
Qed.

(** The product of an [row] by [col] and a [col] by [col2] matrix: with overflow checks it is returned exactly
    when all products and all sums from the left fit, and is then exact; without, each entry is reduced. *)
Theorem C137_matrix_product : forall t row col col2 a b, (0 < ibits t)%nat -> (0 < col)%nat -> shape row col a -> shape col col2 b ->
  let product i j k := elt a i k * elt b k j in
  let all_fit i j := forall k, (k < col)%nat -> fits t (product i j k) /\ fits t (first_sum (product i j) (S k)) in
  ((forall i j, (i < row)%nat -> (j < col2)%nat -> all_fit i j) ->
     exists p, mati_mul true t row col col2 a b = Ret p /\ shape row col2 p /\
       forall i j, (i < row)%nat -> (j < col2)%nat -> elt p i j = first_sum (product i j) col) /\
  (forall i j, (i < row)%nat -> (j < col2)%nat -> ~ all_fit i j -> mati_mul true t row col col2 a b = Pan) /\
  exists p, mati_mul false t row col col2 a b = Ret p /\ shape row col2 p /\
    forall i j, (i < row)%nat -> (j < col2)%nat -> reduces_to t (first_sum (product i j) col) (elt p i j).
Proof.
  intros t row col col2 a b Hb Hc Sa Sb product all_fit.
  assert (forall dbg, mati_mul dbg t row col col2 a b = from_fn row (fun i => from_fn col2 (fun j => entry_prog dbg t col a b i j))) as M.
  { reflexivity. }
  assert (forall i j, {all_fit i j} + {exists k, (k < col)%nat /\ ~ good t a b i j k}) as D.
  { intros i j. unfold all_fit. clear - t.
    assert (forall n, {forall k, (k < n)%nat -> good t a b i j k} + {exists k, (k < n)%nat /\ ~ good t a b i j k}) as G.
    { induction n as [|n [IH|IH]]; [left; intros; lia| |right; destruct IH as (k & ? & ?); exists k; split; auto].
      destruct (fits_dec t (term a b i j n)) as [F1|F1], (fits_dec t (first_sum (term a b i j) (S n))) as [F2|F2].
      - left. intros k Hk. destruct (Nat.eq_dec k n) as [->|]; [split; auto|apply IH; lia].
      - right. exists n. split; auto. intros [X Y]. auto.
      - right. exists n. split; auto. intros [X Y]. auto.
      - right. exists n. split; auto. intros [X Y]. auto. }
    apply G. }
  assert (forall g : nat -> nat -> Z, (forall i j, (i < row)%nat -> (j < col2)%nat -> elt (tabulate row col2 g) i j = g i j)) as ET.
  { intros g i j Hi Hj. rewrite <- (elt_at row col2) by (auto using tabulate_shape). apply tabulate_at; auto. }
  split; [|split].
  - intros H. rewrite M. exists (tabulate row col2 (fun i j => first_sum (product i j) col)). split; [|split; [apply tabulate_shape|intros; apply ET; auto]].
    apply from_fn_ok. intros i Hi. apply from_fn_ok. intros j Hj. apply (entry_checked t row col col2 a b i j Sa Sb Hi Hj Hc). apply H; auto.
  - intros i j Hi Hj H. rewrite M.
    assert (forall i j, (i < row)%nat -> (j < col2)%nat -> entry_prog true t col a b i j <> UB) as NU.
    { intros i' j' Hi' Hj'. destruct (entry_checked t row col col2 a b i' j' Sa Sb Hi' Hj' Hc) as [E1 E2].
      destruct (D i' j') as [G|G]; [rewrite E1 by exact G|rewrite E2 by exact G]; discriminate. }
    assert (entry_prog true t col a b i j = Pan) as EP.
    { apply (entry_checked t row col col2 a b i j Sa Sb Hi Hj Hc). destruct (D i j); tauto. }
    apply from_fn_pan.
    + intros i' Hi'. assert (from_fn col2 (fun j' => entry_prog true t col a b i' j') <> UB) as X; auto.
      unfold from_fn. assert (forall n k, (k + n <= col2)%nat -> array_map (fun j' => entry_prog true t col a b i' j') (seq k n) <> UB) as Y.
      { induction n; intros k Hk; cbn; [discriminate|]. pose proof (NU i' k Hi' ltac:(lia)) as Z0.
        destruct (entry_prog true t col a b i' k); cbn; try congruence. specialize (IHn (S k) ltac:(lia)).
        destruct (array_map _ _); cbn; congruence. }
      apply Y. lia.
    + exists i. split; auto. apply from_fn_pan; [intros; apply NU; auto|]. exists j. split; auto.
  - rewrite M. assert (forall i j, exists x, (i < row)%nat -> (j < col2)%nat -> entry_prog false t col a b i j = Ret x /\ reduces_to t (first_sum (product i j) col) x) as W.
    { intros i j. destruct (lt_dec i row), (lt_dec j col2); try (exists 0; intros; lia).
      destruct (entry_wrapping t row col col2 a b i j) as (x & E & R); eauto. }
    pose (g := fun i j => match entry_prog false t col a b i j with Ret x => x | _ => 0 end).
    exists (tabulate row col2 g). split; [|split; auto using tabulate_shape].
    + apply from_fn_ok. intros i Hi. apply from_fn_ok. intros j Hj. unfold g. destruct (W i j) as (x & E). destruct (E Hi Hj) as [-> _]. reflexivity.
    + intros i j Hi Hj. rewrite ET by auto. unfold g. destruct (W i j) as (x & E). destruct (E Hi Hj) as [-> R]. exact R.
Qed.
Print Assumptions C137_matrix_product.

Example C137_demo : let t := {| ibits := 8; isigned := true |} in
  crossi true t (1, 2, 3) (4, 5, 6) = Ret (-3, 6, -3) /\
  mati_mul true t 2 2 1 [[1; 2]; [3; 4]] [[10]; [20]] = Ret [[50]; [110]] /\
  mati_mul true t 1 3 1 [[100; 1; -1]] [[1]; [100]; [100]] = Pan /\
  mati_mul false t 1 3 1 [[100; 1; -1]] [[1]; [100]; [100]] = Ret [[100]] /\ shape 2 2 [[1; 2]; [3; 4]].
Proof. repeat split; try (vm_compute; reflexivity). repeat constructor. Qed.
