(** Gaussian elimination when subtraction does not cancel exactly. *)
From Coq Require Import ZArith Reals List Bool Arith Lia Lra Psatz Sorted.
From Flocq Require Import Core BinarySingleNaN Plus_error.
From Verif Require Import Base StaticIterModel VectorModel MatrixModel GaussProofs IeeeModel IeeeSpec IeeeProofs GaussFloatSpec.
Import ListNotations.

Lemma for_loop_ret {St} (body : St -> nat -> out St) (P : nat -> St -> Prop) : forall len start s s',
  P start s -> (forall k s s', start <= k < start + len -> P k s -> body s k = Ret s' -> P (S k) s') ->
  for_loop body start len s = Ret s' -> P (start + len) s'.
Proof.
  induction len as [|len IH]; intros start s s' H Hb E; cbn [for_loop] in E.
  - injection E as <-. rewrite Nat.add_0_r. auto.
  - destruct (body s start) as [s1| |] eqn:E1; try discriminate. cbn [obind] in E.
    replace (start + S len) with (S start + len) by lia. apply (IH (S start) s1); auto.
    + apply (Hb start s); auto. lia.
    + intros k t t' Hk. apply Hb. lia.
Qed.

Section Gauss.
Context {T M : Type} (one : T) (sub mul : T -> T -> T) (neg : T -> T) (quo : T -> T -> T).
Context (is_zero : T -> bool) (cmp : T -> T -> option comparison).
Context (get : M -> nat -> nat -> out T) (set : M -> nat -> nat -> T -> out M) (swap : M -> nat -> nat -> out M).
Context (n : nat) (ok : M -> Prop) (at_ : M -> nat -> nat -> T).
Notation div := (fun x y => Ret (quo x y)).

Hypothesis get_ok : forall m i j, ok m -> i < n -> j < n -> get m i j = Ret (at_ m i j).
Hypothesis set_ok : forall m i j v, ok m -> i < n -> j < n -> exists m', set m i j v = Ret m' /\ ok m' /\
  forall a b, a < n -> b < n -> at_ m' a b = if Nat.eqb a i && Nat.eqb b j then v else at_ m a b.
Hypothesis swap_ok : forall m s r, ok m -> s < n -> r < n -> s <> r -> exists m', swap m s r = Ret m' /\ ok m' /\
  forall a b, a < n -> b < n -> at_ m' a b = at_ m (if Nat.eqb a r then s else if Nat.eqb a s then r else a) b.

Lemma all_zero_ret m col : ok m -> col < n -> forall len start b, start + len <= n ->
  all_zero is_zero get m col start len = Ret b -> b = true -> forall r, start <= r < start + len -> is_zero (at_ m r col) = true.
Proof using get_ok.
  intros Hm Hc. induction len as [|len IH]; intros start b Hl E Eb r Hr; cbn [all_zero] in E; [lia|].
  rewrite get_ok in E by (auto; lia). cbn [obind] in E. destruct (is_zero (at_ m start col)) eqn:Z.
  - destruct (Nat.eq_dec r start) as [->|]; auto. apply (IH (S start) b); auto; lia.
  - congruence.
Qed.

Lemma min_nonzero_ret m col base : ok m -> col < n -> forall len off best res, base + off + len <= n ->
  (forall o v, best = Some (o, v) -> o < off /\ at_ m (base + o) col = v /\ is_zero v = false) ->
  min_nonzero is_zero cmp get m col (base + off) len off best = Ret res ->
  forall o v, res = Some (o, v) -> o < off + len /\ at_ m (base + o) col = v /\ is_zero v = false.
Proof using get_ok.
  intros Hm Hc. induction len as [|len IH]; intros off best res Hl Hb E o v Er; cbn [min_nonzero] in E.
  - injection E as <-. destruct (Hb o v Er) as (H1 & H2). split; [lia|exact H2].
  - rewrite get_ok in E by (auto; lia). cbn [obind] in E.
    assert (forall b, (forall o v, b = Some (o, v) -> o < S off /\ at_ m (base + o) col = v /\ is_zero v = false) ->
       min_nonzero is_zero cmp get m col (S (base + off)) len (S off) b = Ret res -> o < off + S len /\ at_ m (base + o) col = v /\ is_zero v = false) as Next.
    { intros b H E'. replace (S (base + off)) with (base + S off) in E' by lia.
      destruct (IH (S off) b res ltac:(lia) H E' o v Er) as (H1 & H2). split; [lia|exact H2]. }
    assert (forall o v, best = Some (o, v) -> o < S off /\ at_ m (base + o) col = v /\ is_zero v = false) as Keep.
    { intros o' v' B. destruct (Hb o' v' B) as (H1 & H2). split; [lia|exact H2]. }
    destruct (is_zero (at_ m (base + off) col)) eqn:Z; [exact (Next best Keep E)|].
    assert (forall o v, Some (off, at_ m (base + off) col) = Some (o, v) -> o < S off /\ at_ m (base + o) col = v /\ is_zero v = false) as New.
    { intros o' v' B. injection B as <- <-. auto. }
    destruct best as [[o' b]|]; [|exact (Next _ New E)].
    destruct (cmp b (at_ m (base + off) col)) as [[]|]; [exact (Next _ Keep E)|exact (Next _ Keep E)|exact (Next _ New E)|discriminate].
Qed.

Lemma eliminate_total m col row r top : ok m -> col < n -> row < n -> r < n -> r <> row ->
  exists m', eliminate sub mul div get set n col row top m r = Ret m' /\ ok m' /\
  forall a b, a < n -> b < n ->
    at_ m' a b = if Nat.eqb a r && Nat.leb col b then sub (at_ m r b) (mul (at_ m row b) (quo (at_ m r col) top)) else at_ m a b.
Proof using get_ok set_ok.
  intros Hm Hc Hrow Hr Hne. unfold eliminate. rewrite get_ok by auto. cbn [obind].
  set (k := quo (at_ m r col) top).
  destruct (for_loop_inv (fun m c => obind (get m r c) (fun x => obind (get m row c) (fun y => set m r c (sub x (mul y k)))))
    (fun c m' => ok m' /\ forall a b, a < n -> b < n ->
      at_ m' a b = if Nat.eqb a r && (Nat.leb col b && Nat.ltb b c) then sub (at_ m r b) (mul (at_ m row b) k) else at_ m a b)
    (n - col) col m) as (m' & E & Hm' & H).
  - split; auto. intros a b Ha Hb. destruct (Nat.eqb a r); cbn [andb]; auto.
    destruct (Nat.leb_spec col b), (Nat.ltb_spec b col); cbn [andb]; auto; lia.
  - intros c m1 Hk (Hm1 & H1). rewrite !get_ok by (auto; lia). cbn [obind].
    destruct (set_ok m1 r c (sub (at_ m1 r c) (mul (at_ m1 row c) k))) as (m2 & E2 & Hm2 & H2); [auto|lia|lia|].
    exists m2. split; auto. split; auto. intros a b Ha Hb. rewrite H2, !H1 by (auto; lia).
    rewrite Nat.eqb_refl. replace (Nat.eqb row r) with false by (symmetry; apply Nat.eqb_neq; auto). cbn [andb].
    replace (Nat.ltb c c) with false by (symmetry; apply Nat.ltb_irrefl). rewrite andb_false_r.
    destruct (Nat.eqb_spec a r) as [->|]; cbn [andb]; auto.
    destruct (Nat.eqb_spec b c) as [->|].
    + replace (Nat.leb col c) with true by (symmetry; apply Nat.leb_le; lia).
      replace (Nat.ltb c (S c)) with true by (symmetry; apply Nat.ltb_lt; lia). reflexivity.
    + replace (Nat.ltb b (S c)) with (Nat.ltb b c); auto.
      destruct (Nat.ltb_spec b c), (Nat.ltb_spec b (S c)); auto; lia.
  - exists m'. split; auto. split; auto. intros a b Ha Hb. rewrite H by auto.
    replace (Nat.ltb b (col + (n - col))) with true by (symmetry; apply Nat.ltb_lt; lia). rewrite andb_true_r. auto.
Qed.

Notation swapped := (@swapped T).
Notation reduced := (@reduced T sub mul quo).

Lemma gauss_col_ret m sign row col st : ok m -> row <= n -> col < n ->
  gauss_col sub mul neg div is_zero cmp get set swap n n (m, sign, row) col = Ret st ->
  (st = (m, sign, row) /\ forall r, row <= r < n -> is_zero (at_ m r col) = true) \/
  exists m' s, st = (m', if Nat.eqb s row then sign else neg sign, S row) /\ ok m' /\
    row <= s < n /\ is_zero (at_ m s col) = false /\
    forall a b, a < n -> b < n -> at_ m' a b = reduced (swapped (at_ m) s row) row col a b.
Proof using get_ok set_ok swap_ok.
  intros Hm Hrow Hcol E. unfold gauss_col in E.
  destruct (all_zero is_zero get m col row (n - row)) as [z| |] eqn:Ez; try discriminate. cbn [obind] in E. destruct z.
  - injection E as <-. left. split; auto. intros r Hr. apply (all_zero_ret m col Hm Hcol (n - row) row true); auto; lia.
  - right. destruct (min_nonzero is_zero cmp get m col row (n - row) 0 None) as [best| |] eqn:Eb; try discriminate. cbn [obind] in E.
    destruct best as [[o v]|]; [|discriminate].
    destruct (fun X => min_nonzero_ret m col row Hm Hcol (n - row) 0 None (Some (o, v)) ltac:(lia) X
      (eq_ind_r (fun r => min_nonzero is_zero cmp get m col r (n - row) 0 None = _) Eb (Nat.add_0_r row)) o v eq_refl) as (Ho & Hv & Nz); [discriminate|].
    rewrite (Nat.add_comm o row) in E. set (s := row + o) in *.
    assert (exists m1, (if Nat.eqb s row then Ret (m, sign) else obind (swap m s row) (fun m' => Ret (m', neg sign)))
      = Ret (m1, if Nat.eqb s row then sign else neg sign) /\ ok m1 /\
      forall a b, a < n -> b < n -> at_ m1 a b = swapped (at_ m) s row a b) as (m1 & Em1 & Hm1 & H1).
    { destruct (Nat.eqb_spec s row) as [Es|Es].
      - exists m. split; auto. split; auto. intros a b Ha Hb. unfold GaussProofs.swapped. rewrite Es.
        destruct (Nat.eqb_spec a row); congruence.
      - destruct (swap_ok m s row) as (m1 & Es1 & Hm1 & H1); auto; try lia. exists m1. rewrite Es1. auto. }
    rewrite Em1 in E. cbn [obind] in E. rewrite get_ok in E by (auto; lia). cbn [obind] in E.
    set (g := swapped (at_ m) s row) in *.
    assert (g row col = v) as Gt by (unfold g, GaussProofs.swapped; rewrite Nat.eqb_refl; auto).
    assert (at_ m1 row col = v) as Ht by (rewrite H1; auto; lia). rewrite Ht in E.
    destruct (for_loop_inv (eliminate sub mul div get set n col row v)
      (fun r m' => ok m' /\ forall a b, a < n -> b < n ->
        at_ m' a b = if Nat.ltb a r then reduced g row col a b else g a b)
      (n - S row) (S row) m1) as (m2 & E2 & Hm2 & H2).
    + split; auto. intros a b Ha Hb. rewrite H1 by auto. unfold GaussProofs.reduced. fold g.
      destruct (Nat.ltb_spec a (S row)); auto. destruct (Nat.ltb_spec row a); auto. lia.
    + intros k m' Hk (Hm' & H'). destruct (eliminate_total m' col row k v) as (m2 & E2 & Hm2 & H2); auto; try lia.
      exists m2. split; auto. split; auto. intros a b Ha Hb. rewrite H2, !H' by (auto; lia).
      replace (Nat.ltb k k) with false by (symmetry; apply Nat.ltb_irrefl).
      replace (Nat.ltb row k) with true by (symmetry; apply Nat.ltb_lt; lia).
      destruct (Nat.eqb_spec a k) as [->|]; cbn [andb].
      * replace (Nat.ltb k (S k)) with true by (symmetry; apply Nat.ltb_lt; lia).
        unfold GaussProofs.reduced. replace (Nat.ltb row k) with true by (symmetry; apply Nat.ltb_lt; lia).
        replace (Nat.ltb row row) with false by (symmetry; apply Nat.ltb_irrefl). cbn [andb].
        replace (Nat.ltb k k) with false by (symmetry; apply Nat.ltb_irrefl). rewrite Gt. reflexivity.
      * replace (Nat.ltb a (S k)) with (Nat.ltb a k); auto.
        destruct (Nat.ltb_spec a k), (Nat.ltb_spec a (S k)); auto; lia.
    + rewrite E2 in E. cbn [obind] in E. injection E as <-. exists m2, s. split; auto. split; auto. split; [lia|].
      split; [rewrite <- Hv in Nz; exact Nz|].
      intros a b Ha Hb. rewrite H2 by auto. replace (Nat.ltb a (S row + (n - S row))) with true; auto.
      symmetry. apply Nat.ltb_lt. lia.
Qed.

(** An invariant of the entries, the sign, the row and the column. *)
Lemma gauss_elim_ret m (Q : (nat -> nat -> T) -> T -> nat -> nat -> Prop) m' sign : ok m ->
  Q (at_ m) one 0 0 ->
  (forall f sg row col, Q f sg row col -> row <= col -> col < n -> (forall r, row <= r < n -> is_zero (f r col) = true) -> Q f sg row (S col)) ->
  (forall f f' sg row col s, Q f sg row col -> row <= col -> col < n -> row <= s < n -> is_zero (f s col) = false ->
     (forall a b, a < n -> b < n -> f' a b = reduced (swapped f s row) row col a b) ->
     Q f' (if Nat.eqb s row then sg else neg sg) (S row) (S col)) ->
  gauss_elim one sub mul neg div is_zero cmp get set swap n n m = Ret (m', sign) ->
  ok m' /\ exists row, row <= n /\ Q (at_ m') sign row n.
Proof using get_ok set_ok swap_ok.
  intros Hm Q0 Qz Qs E. unfold gauss_elim in E.
  destruct (for_loop (gauss_col sub mul neg div is_zero cmp get set swap n n) 0 n (m, one, 0)) as [[[m1 s1] row]| |] eqn:El; try discriminate.
  cbn [obind] in E. injection E as -> ->.
  pose proof (for_loop_ret (gauss_col sub mul neg div is_zero cmp get set swap n n)
    (fun col st => ok (fst (fst st)) /\ snd st <= col /\ Q (at_ (fst (fst st))) (snd (fst st)) (snd st) col)) as H.
  destruct (fun H1 H2 => H n 0 _ _ H1 H2 El) as (H1 & H2 & H3).
  - cbn [fst snd]. auto.
  - intros col [[m2 s2] row2] st' Hc (O & L & HQ) Ec. cbn [fst snd] in *.
    destruct (gauss_col_ret m2 s2 row2 col st' O ltac:(lia) ltac:(lia) Ec) as [[-> Z]|(m3 & s & -> & O3 & Hs & Nz & Hf)]; cbn [fst snd].
    + split; auto. split; [lia|]. apply Qz; auto; lia.
    + split; auto. split; [lia|]. eapply Qs; eauto; lia.
  - cbn [fst snd] in *. split; auto. exists row. auto.
Qed.
End Gauss.
