(** Gaussian elimination on an [n] by [n] matrix, entry by entry. *)
From Coq Require Import List Bool Arith Lia.
From Verif Require Import Base StaticIterModel VectorModel MatrixModel.
Import ListNotations.

Lemma for_loop_inv {St} (body : St -> nat -> out St) (P : nat -> St -> Prop) : forall len start s,
  P start s ->
  (forall k s, start <= k < start + len -> P k s -> exists s', body s k = Ret s' /\ P (S k) s') ->
  exists s', for_loop body start len s = Ret s' /\ P (start + len) s'.
Proof.
  induction len as [|len IH]; intros start s H Hb; cbn [for_loop].
  - exists s. rewrite Nat.add_0_r. auto.
  - destruct (Hb start s) as (s1 & E & H1); [lia|auto|]. rewrite E. cbn [obind].
    destruct (IH (S start) s1 H1) as (s2 & E2 & H2).
    + intros k s' Hk. apply Hb. lia.
    + exists s2. split; auto. replace (start + S len) with (S start + len) by lia. auto.
Qed.

Section Gauss.
Context {T M : Type} (z one : T) (sub mul : T -> T -> T) (neg : T -> T) (div : T -> T -> out T) (quo : T -> T -> T).
Context (is_zero : T -> bool) (cmp : T -> T -> option comparison).
Context (get : M -> nat -> nat -> out T) (set : M -> nat -> nat -> T -> out M) (swap : M -> nat -> nat -> out M).
Context (n : nat) (ok : M -> Prop) (at_ : M -> nat -> nat -> T).

Hypothesis is_zero_spec : forall x, is_zero x = true <-> x = z.
Hypothesis div_spec : forall x t, t <> z -> div x t = Ret (quo x t).
Hypothesis cancel : forall x t, t <> z -> sub x (mul t (quo x t)) = z.
Hypothesis sub_zero : forall x k, sub x (mul z k) = x.
Hypothesis cmp_total : forall x y, cmp x y <> None.
Hypothesis get_ok : forall m i j, ok m -> i < n -> j < n -> get m i j = Ret (at_ m i j).
Hypothesis set_ok : forall m i j v, ok m -> i < n -> j < n -> exists m', set m i j v = Ret m' /\ ok m' /\
  forall a b, a < n -> b < n -> at_ m' a b = if Nat.eqb a i && Nat.eqb b j then v else at_ m a b.
Hypothesis swap_ok : forall m s r, ok m -> s < n -> r < n -> s <> r -> exists m', swap m s r = Ret m' /\ ok m' /\
  forall a b, a < n -> b < n -> at_ m' a b = at_ m (if Nat.eqb a r then s else if Nat.eqb a s then r else a) b.

Lemma all_zero_spec m col : ok m -> col < n -> forall len start, start + len <= n ->
  (all_zero is_zero get m col start len = Ret true /\ forall r, start <= r < start + len -> at_ m r col = z) \/
  (all_zero is_zero get m col start len = Ret false /\ exists r, start <= r < start + len /\ at_ m r col <> z).
Proof using is_zero_spec get_ok.
  intros Hm Hc. induction len as [|len IH]; intros start Hl; cbn [all_zero].
  - left. split; auto. lia.
  - rewrite get_ok by (auto; lia). cbn [obind]. destruct (is_zero (at_ m start col)) eqn:E.
    + apply is_zero_spec in E. destruct (IH (S start)) as [[E1 H]|[E1 (r & Hr & H)]]; [lia| |]; rewrite E1.
      * left. split; auto. intros r Hr. destruct (Nat.eq_dec r start) as [->|]; auto. apply H. lia.
      * right. split; auto. exists r. split; auto. lia.
    + right. split; auto. exists start. split; [lia|]. rewrite <- is_zero_spec. congruence.
Qed.

Lemma min_nonzero_spec m col base : ok m -> col < n -> forall len off best, base + off + len <= n ->
  (match best with
   | Some (o, v) => o < off /\ at_ m (base + o) col = v /\ v <> z
   | None => exists r, base + off <= r < base + off + len /\ at_ m r col <> z
   end) ->
  exists o v, min_nonzero is_zero cmp get m col (base + off) len off best = Ret (Some (o, v)) /\
    o < off + len /\ at_ m (base + o) col = v /\ v <> z.
Proof using is_zero_spec cmp_total get_ok.
  intros Hm Hc. induction len as [|len IH]; intros off best Hl Hb; cbn [min_nonzero].
  - destruct best as [[o v]|]; [|destruct Hb as (r & Hr & _); lia].
    exists o, v. repeat split; try apply Hb. destruct Hb. lia.
  - rewrite get_ok by (auto; lia). cbn [obind].
    assert (forall b, (match b with
       | Some (o, v) => o < S off /\ at_ m (base + o) col = v /\ v <> z
       | None => exists r, base + S off <= r < base + S off + len /\ at_ m r col <> z
       end) -> exists o v, min_nonzero is_zero cmp get m col (S (base + off)) len (S off) b = Ret (Some (o, v)) /\
         o < off + S len /\ at_ m (base + o) col = v /\ v <> z) as Next.
    { intros b H. destruct (IH (S off) b) as (o & v & E & Ho & Hv); [lia|exact H|].
      replace (S (base + off)) with (base + S off) by lia. exists o, v. split; [exact E|]. split; [lia|exact Hv]. }
    destruct (is_zero (at_ m (base + off) col)) eqn:E.
    + apply is_zero_spec in E. apply Next. destruct best as [[o v]|].
      * destruct Hb as (Ho & Hv). split; [lia|exact Hv].
      * destruct Hb as (r & Hr & Hz). exists r. split; auto. destruct (Nat.eq_dec r (base + off)) as [->|]; [contradiction|lia].
    + assert (at_ m (base + off) col <> z) as Nz by (rewrite <- is_zero_spec; congruence).
      assert (off < S off /\ at_ m (base + off) col = at_ m (base + off) col /\ at_ m (base + off) col <> z) as Here
        by (split; [lia|auto]).
      destruct best as [[o v]|].
      * destruct (cmp v (at_ m (base + off) col)) as [c|] eqn:Ec; [|elim (cmp_total _ _ Ec)].
        destruct Hb as (Ho & Hv).
        assert (o < S off /\ at_ m (base + o) col = v /\ v <> z) as Old by (split; [lia|exact Hv]).
        destruct c; [apply (Next (Some (o, v)) Old)|apply (Next (Some (o, v)) Old)|apply (Next (Some (off, _)) Here)].
      * apply (Next (Some (off, _)) Here).
Qed.

Lemma eliminate_spec m col row r top : ok m -> col < n -> row < n -> r < n -> r <> row -> top <> z ->
  exists m', eliminate sub mul div get set n col row top m r = Ret m' /\ ok m' /\
  forall a b, a < n -> b < n ->
    at_ m' a b = if Nat.eqb a r && Nat.leb col b then sub (at_ m r b) (mul (at_ m row b) (quo (at_ m r col) top)) else at_ m a b.
Proof using div_spec get_ok set_ok.
  intros Hm Hc Hrow Hr Hne Ht. unfold eliminate. rewrite get_ok by auto. cbn [obind]. rewrite div_spec by auto. cbn [obind].
  set (k := quo (at_ m r col) top).
  destruct (for_loop_inv (fun m c => obind (get m r c) (fun x => obind (get m row c) (fun y => set m r c (sub x (mul y k)))))
    (fun c m' => ok m' /\ forall a b, a < n -> b < n ->
      at_ m' a b = if Nat.eqb a r && (Nat.leb col b && Nat.ltb b c) then sub (at_ m r b) (mul (at_ m row b) k) else at_ m a b)
    (n - col) col m) as (m' & E & Hm' & H).
  - split; auto. intros a b Ha Hb. destruct (Nat.eqb a r); cbn [andb]; auto.
    destruct (Nat.leb_spec col b), (Nat.ltb_spec b col); cbn [andb]; auto; lia.
  - intros c m1 Hk (Hm1 & H1). rewrite !get_ok by (auto; lia). cbn [obind].
    destruct (set_ok m1 r c (sub (at_ m1 r c) (mul (at_ m1 row c) k))) as (m2 & E2 & Hm2 & H2); [auto|lia|lia|].
    exists m2. split; auto. split; auto. intros a b Ha Hb. rewrite H2, !H1 by (auto; lia).
    rewrite Nat.eqb_refl. replace (Nat.eqb row r) with false by (symmetry; apply Nat.eqb_neq; auto). cbn [andb].
    replace (Nat.ltb c c) with false by (symmetry; apply Nat.ltb_irrefl). rewrite andb_false_r.
    destruct (Nat.eqb_spec a r) as [->|]; cbn [andb]; auto.
    destruct (Nat.eqb_spec b c) as [->|].
    + replace (Nat.leb col c) with true by (symmetry; apply Nat.leb_le; lia).
      replace (Nat.ltb c (S c)) with true by (symmetry; apply Nat.ltb_lt; lia). reflexivity.
    + replace (Nat.ltb b (S c)) with (Nat.ltb b c); auto.
      destruct (Nat.ltb_spec b c), (Nat.ltb_spec b (S c)); auto; lia.
  - exists m'. split; auto. split; auto. intros a b Ha Hb. rewrite H by auto.
    replace (Nat.ltb b (col + (n - col))) with true by (symmetry; apply Nat.ltb_lt; lia). rewrite andb_true_r. auto.
Qed.

(** The effect of one column on the entries. *)
Definition swapped (f : nat -> nat -> T) (s r a b : nat) : T :=
  f (if Nat.eqb a r then s else if Nat.eqb a s then r else a) b.

Definition reduced (g : nat -> nat -> T) (row col a b : nat) : T :=
  if Nat.ltb row a && Nat.leb col b then sub (g a b) (mul (g row b) (quo (g a col) (g row col))) else g a b.

Lemma gauss_col_spec m sign row col : ok m -> row <= n -> col < n ->
  (gauss_col sub mul neg div is_zero cmp get set swap n n (m, sign, row) col = Ret (m, sign, row) /\
    forall r, row <= r < n -> at_ m r col = z) \/
  exists m' s, gauss_col sub mul neg div is_zero cmp get set swap n n (m, sign, row) col
      = Ret (m', if Nat.eqb s row then sign else neg sign, S row) /\ ok m' /\
    row < n /\ row <= s < n /\ at_ m s col <> z /\
    forall a b, a < n -> b < n -> at_ m' a b = reduced (swapped (at_ m) s row) row col a b.
Proof using is_zero_spec div_spec cmp_total get_ok set_ok swap_ok.
  intros Hm Hrow Hcol. unfold gauss_col.
  destruct (all_zero_spec m col Hm Hcol (n - row) row) as [[E H]|[E (r & Hr & Hz)]]; [lia| |]; rewrite E; cbn [obind].
  - left. split; auto. intros r Hr. apply H. lia.
  - right. destruct (min_nonzero_spec m col row Hm Hcol (n - row) 0 None) as (o & v & E1 & Ho & Hv & Nz); [lia| |].
    { exists r. split; auto. lia. }
    rewrite Nat.add_0_r in E1. rewrite E1. cbn [obind]. rewrite (Nat.add_comm o row). set (s := row + o) in *.
    assert (exists m1, (if Nat.eqb s row then Ret (m, sign) else obind (swap m s row) (fun m' => Ret (m', neg sign)))
      = Ret (m1, if Nat.eqb s row then sign else neg sign) /\ ok m1 /\
      forall a b, a < n -> b < n -> at_ m1 a b = swapped (at_ m) s row a b) as (m1 & Em1 & Hm1 & H1).
    { destruct (Nat.eqb_spec s row) as [Es|Es].
      - exists m. split; auto. split; auto. intros a b Ha Hb. unfold swapped. rewrite Es.
        destruct (Nat.eqb_spec a row); congruence.
      - destruct (swap_ok m s row) as (m1 & Es1 & Hm1 & H1); auto; try lia. exists m1. rewrite Es1. auto. }
    rewrite Em1. cbn [obind]. rewrite get_ok by (auto; lia). cbn [obind].
    set (g := swapped (at_ m) s row) in *.
    assert (g row col = v) as Gt by (unfold g, swapped; rewrite Nat.eqb_refl; auto).
    assert (at_ m1 row col = v) as Ht by (rewrite H1; auto; lia). rewrite Ht.
    destruct (for_loop_inv (eliminate sub mul div get set n col row v)
      (fun r m' => ok m' /\ forall a b, a < n -> b < n ->
        at_ m' a b = if Nat.ltb a r then reduced g row col a b else g a b)
      (n - S row) (S row) m1) as (m2 & E2 & Hm2 & H2).
    + split; auto. intros a b Ha Hb. rewrite H1 by auto. unfold reduced. fold g.
      destruct (Nat.ltb_spec a (S row)); auto. destruct (Nat.ltb_spec row a); auto. lia.
    + intros k m' Hk (Hm' & H'). destruct (eliminate_spec m' col row k v) as (m2 & E2 & Hm2 & H2); auto; try lia.
      exists m2. split; auto. split; auto. intros a b Ha Hb. rewrite H2, !H' by (auto; lia).
      replace (Nat.ltb k k) with false by (symmetry; apply Nat.ltb_irrefl).
      replace (Nat.ltb row k) with true by (symmetry; apply Nat.ltb_lt; lia).
      destruct (Nat.eqb_spec a k) as [->|]; cbn [andb].
      * replace (Nat.ltb k (S k)) with true by (symmetry; apply Nat.ltb_lt; lia).
        unfold reduced. replace (Nat.ltb row k) with true by (symmetry; apply Nat.ltb_lt; lia).
        replace (Nat.ltb row row) with false by (symmetry; apply Nat.ltb_irrefl). cbn [andb].
        replace (Nat.ltb k k) with false by (symmetry; apply Nat.ltb_irrefl).
        rewrite Gt. reflexivity.
      * replace (Nat.ltb a (S k)) with (Nat.ltb a k); auto.
        destruct (Nat.ltb_spec a k), (Nat.ltb_spec a (S k)); auto; lia.
    + rewrite E2. cbn [obind]. exists m2, s. split; auto. split; auto. split; [lia|]. split; [lia|].
      split; [rewrite <- Hv in Nz; exact Nz|].
      intros a b Ha Hb. rewrite H2 by auto. replace (Nat.ltb a (S row + (n - S row))) with true; auto.
      symmetry. apply Nat.ltb_lt. lia.
Qed.

(** The part of the matrix already dealt with. *)
Definition partial_echelon (f : nat -> nat -> T) (row col : nat) : Prop :=
  row <= col /\ (forall i j, row <= i < n -> j < col -> f i j = z) /\
  exists p : nat -> nat,
    (forall i, i < row -> p i < col /\ f i (p i) <> z /\ forall j, j < p i -> f i j = z) /\
    (forall i i', i < i' < row -> p i < p i').

Lemma gauss_elim_spec m : ok m -> forall (Q : (nat -> nat -> T) -> T -> Prop),
  Q (at_ m) one ->
  (forall f f' sign row col s, Q f sign -> row <= s < n -> row < n -> col < n -> f s col <> z ->
     (forall i j, row <= i < n -> j < col -> f i j = z) ->
     (forall a b, a < n -> b < n -> f' a b = reduced (swapped f s row) row col a b) ->
     Q f' (if Nat.eqb s row then sign else neg sign)) ->
  exists m' sign row, gauss_elim one sub mul neg div is_zero cmp get set swap n n m = Ret (m', sign) /\ ok m' /\
    Q (at_ m') sign /\ row <= n /\ partial_echelon (at_ m') row n.
Proof using is_zero_spec div_spec cancel sub_zero cmp_total get_ok set_ok swap_ok.
  intros Hm Q Q0 Qs. unfold gauss_elim.
  destruct (for_loop_inv (gauss_col sub mul neg div is_zero cmp get set swap n n)
    (fun col '(m', sign, row) => ok m' /\ Q (at_ m') sign /\ partial_echelon (at_ m') row col)
    n 0 (m, one, 0)) as ([[m' sign] row] & E & Hm' & HQ & HP).
  - split; auto. split; auto. split; [lia|]. split; [lia|]. exists (fun i => i). split; lia.
  - intros col [[m1 sign] row] Hcol (Hm1 & HQ & Hle & Hz & p & Hp & Hinc).
    destruct (gauss_col_spec m1 sign row col) as [[E H]|(m2 & s & E & Hm2 & Hrow & Hs & Nz & H)]; auto; try lia.
    + rewrite E. eexists. split; [reflexivity|]. cbn beta iota. split; auto. split; auto. split; [lia|]. split.
      * intros i j Hi Hj. destruct (Nat.eq_dec j col) as [->|]; auto. apply Hz; lia.
      * exists p. split; auto. intros i Hi. destruct (Hp i Hi) as (H1 & H2). split; [lia|auto].
    + rewrite E. eexists. split; [reflexivity|]. cbn beta iota. split; auto. split.
      * apply (Qs (at_ m1) _ sign row col s); auto; try lia.
      * assert (forall i j, i < row -> j < n -> at_ m2 i j = at_ m1 i j) as Hold.
        { intros i j Hi Hj. rewrite H by lia. unfold reduced, swapped.
          replace (Nat.ltb row i) with false by (symmetry; apply Nat.ltb_ge; lia). cbn [andb].
          replace (Nat.eqb i row) with false by (symmetry; apply Nat.eqb_neq; lia).
          replace (Nat.eqb i s) with false by (symmetry; apply Nat.eqb_neq; lia). auto. }
        assert (forall i j, row <= i < n -> j < col -> swapped (at_ m1) s row i j = z) as Hsz.
        { intros i j Hi Hj. unfold swapped. destruct (Nat.eqb i row); [|destruct (Nat.eqb i s)]; apply Hz; lia. }
        assert (swapped (at_ m1) s row row col = at_ m1 s col) as Hpiv by (unfold swapped; rewrite Nat.eqb_refl; auto).
        split; [lia|]. split.
        { intros i j Hi Hj. rewrite H by lia. unfold reduced.
          replace (Nat.ltb row i) with true by (symmetry; apply Nat.ltb_lt; lia). cbn [andb].
          destruct (Nat.leb_spec col j).
          - assert (j = col) as -> by lia. apply cancel. rewrite Hpiv. auto.
          - apply Hsz; lia. }
        { exists (fun i => if Nat.ltb i row then p i else col). split.
          - intros i Hi. destruct (Nat.ltb_spec i row) as [Hlt|Hge].
            + destruct (Hp i Hlt) as (P1 & P2 & P3). split; [lia|]. rewrite Hold by lia. split; auto.
              intros j Hj. rewrite Hold by lia. auto.
            + assert (i = row) as -> by lia. split; [lia|].
              assert (forall j, j < n -> at_ m2 row j = swapped (at_ m1) s row row j) as Hr.
              { intros j Hj. rewrite H by lia. unfold reduced. rewrite Nat.ltb_irrefl. auto. }
              rewrite Hr by lia. split; [rewrite Hpiv; auto|]. intros j Hj. rewrite Hr by lia. apply Hsz; lia.
          - intros i i' Hi. destruct (Nat.ltb_spec i row); [|lia]. destruct (Nat.ltb_spec i' row).
            + apply Hinc. lia.
            + destruct (Hp i) as (P1 & _); auto. }
  - rewrite E. cbn [obind]. exists m', sign, row. split; auto. split; auto. split; auto. destruct HP as [? ?]. split; auto.
    split; auto.
Qed.

(** From the invariant at the end: echelon form, and upper triangular. *)
Lemma echelon_final f row : partial_echelon f row n ->
  (forall i i' j', i < i' < n -> j' < n -> f i' j' <> z -> exists j, j < j' /\ f i j <> z) /\
  (forall i j, j < i < n -> f i j = z).
Proof using.
  intros (Hle & Hz & p & Hp & Hinc).
  split.
  - intros i i' j' Hi Hj Nz. destruct (le_lt_dec row i'); [elim Nz; apply Hz; lia|].
    destruct (Hp i') as (P1 & P2 & P3); auto. destruct (Hp i) as (Q1 & Q2 & Q3); [lia|].
    exists (p i). split; auto. destruct (le_lt_dec (p i') j'); [|elim Nz; auto].
    specialize (Hinc i i'). lia.
  - intros i j Hi. destruct (le_lt_dec row i); [apply Hz; lia|].
    assert (forall k, k < row -> k <= p k) as Hk.
    { induction k as [|k IH]; intros H; [lia|]. specialize (Hinc k (S k)). specialize (IH ltac:(lia)). lia. }
    apply (Hp i); auto. specialize (Hk i). lia.
Qed.
End Gauss.
