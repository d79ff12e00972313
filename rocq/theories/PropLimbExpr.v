(** C171: expressions of limb slices, in any mix of the algorithms. *)
From Coq Require Import ZArith List Bool Lia.
From Verif Require Import Base Words Spec Arith BitSliceModel BitSliceProofs ElementModel
  BitwiseModel ElemAddSub ElemMul ElemShift BitwiseProofs BigIntSafe PropBits PropBits2 LimbExprModel.
Import ListNotations.
Local Open Scope Z_scope.

(** The number an expression stands for. *)
Fixpoint number (w : nat) (e : lexp) : Z :=
  match e with
  | Slice l => val w l
  | Add _ a b => number w a + number w b
  | Sub _ a b => number w a - number w b
  | Mul _ a b => number w a * number w b
  | Shl _ a s => number w a * 2 ^ Z.of_nat s
  | Shr _ a s => number w a / 2 ^ Z.of_nat s
  | And a b => Z.land (number w a) (number w b)
  | Or a b => Z.lor (number w a) (number w b)
  | Xor a b => Z.lxor (number w a) (number w b)
  end.

(** The slices are not empty and their limbs have [w] bits. *)
Fixpoint proper (w : nat) (e : lexp) : Prop :=
  match e with
  | Slice l => wf w l /\ l <> []
  | Add _ a b | Sub _ a b | Mul _ a b | And a b | Or a b | Xor a b => proper w a /\ proper w b
  | Shl _ a _ | Shr _ a _ => proper w a
  end.

(** No difference is negative; with overflow checks no limb-by-limb right shift is by a limb or more. *)
Fixpoint sensible (dbg : bool) (w : nat) (e : lexp) : bool :=
  match e with
  | Slice l => true
  | Sub _ a b => sensible dbg w a && sensible dbg w b && (number w b <=? number w a)
  | Add _ a b | Mul _ a b | And a b | Or a b | Xor a b => sensible dbg w a && sensible dbg w b
  | Shl _ a s => sensible dbg w a
  | Shr Element a s => sensible dbg w a && negb (dbg && (w <=? s)%nat)
  | Shr Bitwise a s => sensible dbg w a
  end.

(** The same expression with other algorithms. *)
Fixpoint alike (e f : lexp) : Prop :=
  match e, f with
  | Slice l, Slice l' => l = l'
  | Add _ a b, Add _ a' b' | Sub _ a b, Sub _ a' b' | Mul _ a b, Mul _ a' b'
  | And a b, And a' b' | Or a b, Or a' b' | Xor a b, Xor a' b' => alike a a' /\ alike b b'
  | Shl _ a s, Shl _ a' s' | Shr _ a s, Shr _ a' s' => alike a a' /\ s = s'
  | _, _ => False
  end.

Lemma ne_len {A} (l : list A) : l <> [] <-> (0 < length l)%nat.
Proof. destruct l; cbn; split; intros; try lia; congruence. Qed.

Lemma bit_mul_nonempty w l r out : (0 < w)%nat -> wf w l -> wf w r -> l <> [] -> bit_mul w l r = Ok out -> out <> [].
Proof.
  intros Hw Hl Hr Nl E. unfold bit_mul in E. set (len := Nat.max (length l) (length r)) in *.
  destruct (elem_shl_spec w 0 Hw l Hl) as (ns & Ens & Wns & Cns & Vns). rewrite Ens in E. cbn [bind] in E.
  match type of E with bind ?f _ = _ => destruct f as [[o n']| |] eqn:F end; try discriminate. cbn [bind fst] in E. injection E as <-.
  apply (foldR_preserve (fun s : list Z * list Z => wf w (fst s) /\ fst s <> [] /\ wf w (snd s))) in F.
  - apply F.
  - intros [o1 n1] k [o2 n2] (W1 & N1 & W2). cbn [fst snd] in *. destruct (get_bit w r k) as [b| |]; cbn [bind]; try discriminate.
    destruct (elem_shl_spec w 1 Hw n1 W2) as (n3 & E3 & W3 & _). destruct b.
    + destruct (elem_add_spec w o1 n1 Hw W1 W2) as (o3 & Eo & Wo & Co & _). rewrite Eo. cbn [bind]. rewrite E3. cbn [bind].
      intros Q. injection Q as <- <-. split; auto. split; auto. apply Co.
    + cbn [bind]. rewrite E3. cbn [bind]. intros Q. injection Q as <- <-. auto.
  - cbn [fst snd]. split; [apply wf_zeros|]. split; auto. apply ne_len. rewrite length_zeros. apply ne_len in Nl. unfold len. lia.
Qed.

Lemma set_bit_push_longer w l i v : (0 < w)%nat -> (length l <= length (set_bit_push w l i v))%nat.
Proof. intros Hw. rewrite set_bit_push_bset, length_bset, length_extend by auto. lia. Qed.

Lemma bit_shl_longer w l s : (0 < w)%nat -> (length l <= length (bit_shl w l s))%nat.
Proof.
  intros Hw. unfold bit_shl. cbv zeta.
  match goal with |- (_ <= length (fold_left ?f ?xs ?a))%nat => enough (K : forall ys acc, (length acc <= length (fold_left f ys acc))%nat) end.
  - etransitivity; [|apply K]. rewrite length_zeros. auto.
  - induction ys as [|[j b] ys IH]; intros acc; cbn [fold_left]; auto.
    etransitivity; [|apply IH]. destruct (_ || _); auto using set_bit_push_longer.
Qed.

Lemma bit_add_nonempty w l r : (0 < w)%nat -> wf w l -> wf w r -> l <> [] -> bit_add w l r <> [].
Proof. intros Hw Hl Hr N. apply ne_len. rewrite C01_bitwise_add_length by auto. apply ne_len in N. lia. Qed.

Lemma canonical_ne l : canonical l -> l <> [].
Proof. intros [N _]. exact N. Qed.

Lemma val_bitop w l r : (0 < w)%nat -> wf w l -> wf w r ->
  val w (elem_bitand l r) = Z.land (val w l) (val w r) /\
  val w (elem_bitor l r) = Z.lor (val w l) (val w r) /\
  val w (elem_bitxor l r) = Z.lxor (val w l) (val w r).
Proof.
  intros Hw Hl Hr. pose proof (fun i => C13_bitops w l r i Hw Hl Hr) as B.
  split; [|split]; apply Z.bits_inj'; intros n Hn; specialize (B (Z.to_nat n)); rewrite Z2Nat.id in B by auto;
    destruct B as ((_ & B1) & (_ & B2) & (_ & B3)).
  - rewrite Z.land_spec. auto.
  - rewrite Z.lor_spec. auto.
  - rewrite Z.lxor_spec. auto.
Qed.

Lemma bitop_ne op l r : l <> [] -> elem_bitop op l r <> [].
Proof. intros N. apply ne_len. rewrite (proj1 (elem_bitop_spec op l r)). apply ne_len in N. lia. Qed.

Definition good (w : nat) (v : Z) (r : res (list Z)) : Prop :=
  exists out, r = Ok out /\ wf w out /\ out <> [] /\ val w out = v.

Lemma add_good w k x y : (0 < w)%nat -> wf w x -> wf w y -> x <> [] ->
  good w (val w x + val w y) (match k with Element => elem_add w x y | Bitwise => Ok (bit_add w x y) end).
Proof.
  intros Hw Wx Wy Nx. destruct k.
  - destruct (elem_add_spec w x y Hw Wx Wy) as (o & E & W & C & V). exists o. auto using canonical_ne.
  - destruct (bit_add_spec w x y Hw Wx Wy) as [W V]. eexists. split; [reflexivity|]. auto using bit_add_nonempty.
Qed.

Lemma mul_good w k x y : (0 < w)%nat -> wf w x -> wf w y -> x <> [] ->
  good w (val w x * val w y) (match k with Element => elem_mul w x y | Bitwise => bit_mul w x y end).
Proof.
  intros Hw Wx Wy Nx. assert (L : (0 < length x + length y)%nat) by (apply ne_len in Nx; lia).
  destruct (C05_mul_exact w x y Hw Wx Wy L) as [(o & E & W & C & V) (o' & E' & W' & V')]. destruct k.
  - exists o. auto using canonical_ne.
  - exists o'. eauto using bit_mul_nonempty.
Qed.

Lemma sub_good w k x y : (0 < w)%nat -> wf w x -> wf w y -> x <> [] ->
  let r := (do r <- match k with Element => elem_sub w x y | Bitwise => bit_sub w x y end ;;
            if snd r : bool then Panic else Ok (fst r)) in
  if val w y <=? val w x then good w (val w x - val w y) r else r = Panic.
Proof.
  intros Hw Wx Wy Nx. cbv zeta. assert (L : (0 < Nat.max (length x) (length y))%nat) by (apply ne_len in Nx; lia).
  destruct (C03_sub_partial w x y Hw Wx Wy L) as [(o & E & W & C & V) (o' & E' & W' & V')].
  destruct (bit_sub_spec w x y Hw Wx Wy) as (o2 & E2 & _ & L2 & _).
  assert (N' : o' <> []).
  { rewrite E' in E2. injection E2 as <-. apply ne_len. lia. }
  destruct (Z.leb_spec (val w y) (val w x)) as [Le|Gt].
  - rewrite (proj2 (Z.ltb_ge _ _) Le) in E, E'. rewrite (proj2 (Z.leb_le _ _)) in V, V' by lia.
    destruct k; [rewrite E|rewrite E']; cbn [bind snd fst]; eexists; (split; [reflexivity|]);
      (split; [assumption|]); (split; [auto using canonical_ne|lia]).
  - rewrite (proj2 (Z.ltb_lt _ _) Gt) in E, E'. destruct k; [rewrite E|rewrite E']; reflexivity.
Qed.

(** Every expression ends: with a vector of the number it stands for, or with a panic when a difference
    is negative or a limb-by-limb right shift is too far for the overflow checks. *)
Theorem C171_exact_partial : forall dbg w e, (0 < w)%nat -> proper w e ->
  if sensible dbg w e
  then exists out, run_exp dbg w e = Ok out /\ wf w out /\ out <> [] /\ val w out = number w e
  else run_exp dbg w e = Panic.
Proof.
  intros dbg w e Hw. induction e as [l|k a IHa b IHb|k a IHa b IHb|k a IHa b IHb|k a IHa s|k a IHa s|a IHa b IHb|a IHa b IHb|a IHa b IHb];
    cbn [proper number run_exp]; intros P.
  - cbn [sensible]. exists l. tauto.
  - cbn [sensible]. destruct P as [Pa Pb]. specialize (IHa Pa). specialize (IHb Pb).
    destruct (sensible dbg w a); cbn [andb]; [|rewrite IHa; reflexivity]. destruct IHa as (x & Ex & Wx & Nx & <-).
    rewrite Ex. cbn [bind]. destruct (sensible dbg w b); [|rewrite IHb; reflexivity]. destruct IHb as (y & Ey & Wy & Ny & <-).
    rewrite Ey. cbn [bind]. apply add_good; auto.
  - cbn [sensible]. destruct P as [Pa Pb]. specialize (IHa Pa). specialize (IHb Pb).
    destruct (sensible dbg w a); cbn [andb]; [|rewrite IHa; reflexivity]. destruct IHa as (x & Ex & Wx & Nx & <-).
    rewrite Ex. cbn [bind]. destruct (sensible dbg w b); cbn [andb]; [|rewrite IHb; reflexivity]. destruct IHb as (y & Ey & Wy & Ny & <-).
    rewrite Ey. cbn [bind]. apply sub_good; auto.
  - cbn [sensible]. destruct P as [Pa Pb]. specialize (IHa Pa). specialize (IHb Pb).
    destruct (sensible dbg w a); cbn [andb]; [|rewrite IHa; reflexivity]. destruct IHa as (x & Ex & Wx & Nx & <-).
    rewrite Ex. cbn [bind]. destruct (sensible dbg w b); [|rewrite IHb; reflexivity]. destruct IHb as (y & Ey & Wy & Ny & <-).
    rewrite Ey. cbn [bind]. apply mul_good; auto.
  - cbn [sensible]. specialize (IHa P). destruct (sensible dbg w a); [|rewrite IHa; reflexivity].
    destruct IHa as (x & Ex & Wx & Nx & <-). rewrite Ex. cbn [bind].
    destruct (C08_shl_exact w x s Hw Wx) as [(o & E & W & C & V) [W' V']]. destruct k.
    + exists o. auto using canonical_ne.
    + eexists. split; [reflexivity|]. split; [auto|]. split; [|auto]. apply ne_len. apply ne_len in Nx. pose proof (bit_shl_longer w x s Hw). lia.
  - specialize (IHa P). destruct k; cbn [sensible].
    + destruct (sensible dbg w a); cbn [andb]; [|rewrite IHa; reflexivity]. destruct IHa as (x & Ex & Wx & Nx & <-). rewrite Ex. cbn [bind].
      pose proof (C11_element_shr_partial dbg w x s Hw Wx (proj1 (ne_len x) Nx)) as R. destruct (dbg && (w <=? s)%nat); cbn [negb]; auto.
      destruct R as (o & E & W & C & V). exists o. auto using canonical_ne.
    + destruct (sensible dbg w a); cbn [andb]; [|rewrite IHa; reflexivity]. destruct IHa as (x & Ex & Wx & Nx & <-). rewrite Ex. cbn [bind].
      destruct (C11_bitwise_shr_exact w x s Hw Wx (proj1 (ne_len x) Nx)) as (o & E & W & C & V). exists o. auto using canonical_ne.
  - cbn [sensible]. destruct P as [Pa Pb]. specialize (IHa Pa). specialize (IHb Pb).
    destruct (sensible dbg w a); cbn [andb]; [|rewrite IHa; reflexivity]. destruct IHa as (x & Ex & Wx & Nx & <-).
    rewrite Ex. cbn [bind]. destruct (sensible dbg w b); [|rewrite IHb; reflexivity]. destruct IHb as (y & Ey & Wy & Ny & <-).
    rewrite Ey. cbn [bind]. eexists. split; [reflexivity|]. split; [apply (C13_bitops w x y 0 Hw Wx Wy)|]. split; [apply bitop_ne; auto|apply val_bitop; auto].
  - cbn [sensible]. destruct P as [Pa Pb]. specialize (IHa Pa). specialize (IHb Pb).
    destruct (sensible dbg w a); cbn [andb]; [|rewrite IHa; reflexivity]. destruct IHa as (x & Ex & Wx & Nx & <-).
    rewrite Ex. cbn [bind]. destruct (sensible dbg w b); [|rewrite IHb; reflexivity]. destruct IHb as (y & Ey & Wy & Ny & <-).
    rewrite Ey. cbn [bind]. eexists. split; [reflexivity|]. split; [apply (C13_bitops w x y 0 Hw Wx Wy)|]. split; [apply bitop_ne; auto|apply val_bitop; auto].
  - cbn [sensible]. destruct P as [Pa Pb]. specialize (IHa Pa). specialize (IHb Pb).
    destruct (sensible dbg w a); cbn [andb]; [|rewrite IHa; reflexivity]. destruct IHa as (x & Ex & Wx & Nx & <-).
    rewrite Ex. cbn [bind]. destruct (sensible dbg w b); [|rewrite IHb; reflexivity]. destruct IHb as (y & Ey & Wy & Ny & <-).
    rewrite Ey. cbn [bind]. eexists. split; [reflexivity|]. split; [apply (C13_bitops w x y 0 Hw Wx Wy)|]. split; [apply bitop_ne; auto|apply val_bitop; auto].
Qed.
Print Assumptions C171_exact_partial.

Lemma alike_number w : forall e f, alike e f -> number w e = number w f.
Proof.
  induction e; destruct f; cbn [alike number]; try tauto; intros A.
  - congruence.
  - destruct A as [A B]. rewrite (IHe1 _ A), (IHe2 _ B). reflexivity.
  - destruct A as [A B]. rewrite (IHe1 _ A), (IHe2 _ B). reflexivity.
  - destruct A as [A B]. rewrite (IHe1 _ A), (IHe2 _ B). reflexivity.
  - destruct A as [A ->]. rewrite (IHe _ A). reflexivity.
  - destruct A as [A ->]. rewrite (IHe _ A). reflexivity.
  - destruct A as [A B]. rewrite (IHe1 _ A), (IHe2 _ B). reflexivity.
  - destruct A as [A B]. rewrite (IHe1 _ A), (IHe2 _ B). reflexivity.
  - destruct A as [A B]. rewrite (IHe1 _ A), (IHe2 _ B). reflexivity.
Qed.

Lemma alike_proper w : forall e f, alike e f -> proper w e -> proper w f.
Proof.
  induction e; destruct f; cbn [alike proper]; try tauto; try (intros [A B] [C D]; auto); try (intros [A B] C; auto).
  intros <-. auto.
Qed.

Lemma alike_sensible w : forall e f, alike e f -> sensible false w e = sensible false w f.
Proof.
  induction e; destruct f; cbn [alike sensible]; try tauto; intros A; try (destruct A as [A B]);
    try (rewrite (IHe1 _ A), (IHe2 _ B)); try reflexivity.
  - rewrite (alike_number w _ _ A), (alike_number w _ _ B). reflexivity.
  - rewrite (IHe _ A). reflexivity.
  - subst. rewrite (IHe _ A). destruct k, k0; cbn [andb negb]; rewrite ?andb_true_r; reflexivity.
Qed.

(** Which algorithms an expression uses cannot be told from the shrunk result of an unchecked build. *)
Theorem C171_interchangeable_partial : forall w e f, (0 < w)%nat -> proper w e -> alike e f ->
  (do x <- run_exp false w e ;; shrink x) = (do y <- run_exp false w f ;; shrink y).
Proof.
  intros w e f Hw Pe A. pose proof (C171_exact_partial false w e Hw Pe) as E.
  pose proof (C171_exact_partial false w f Hw (alike_proper w _ _ A Pe)) as F. rewrite <- (alike_sensible w _ _ A) in F.
  destruct (sensible false w e).
  - destruct E as (x & -> & Wx & Nx & Vx), F as (y & -> & Wy & Ny & Vy). cbn [bind].
    apply (shrink_eq_iff w); auto. rewrite Vx, Vy. apply alike_number. exact A.
  - rewrite E, F. reflexivity.
Qed.
Print Assumptions C171_interchangeable_partial.

(** Without shrinking, or with overflow checks, it can. *)
Theorem C171_refuted : exists e f, proper 8 e /\ alike e f /\ run_exp false 8 e <> run_exp false 8 f /\
  exists g h, proper 8 g /\ alike g h /\
    (do x <- run_exp true 8 g ;; shrink x) = Panic /\ (do x <- run_exp true 8 h ;; shrink x) = Ok [7].
Proof.
  exists (Mul Element (Slice [3]) (Slice [0])), (Mul Bitwise (Slice [3]) (Slice [0])).
  split; [cbn; repeat split; try discriminate; repeat constructor; cbn; lia|]. split; [cbn; auto|]. split; [vm_compute; discriminate|].
  exists (Shr Element (Slice [3; 7]) 8), (Shr Bitwise (Slice [3; 7]) 8).
  split; [cbn; split; [repeat constructor; cbn; lia|discriminate]|]. split; [cbn; auto|]. split; vm_compute; reflexivity.
Qed.
Print Assumptions C171_refuted.

Example C171_demo :
  let e := Sub Bitwise (Mul Element (Slice [200; 1]) (Add Bitwise (Slice [255]) (Slice [1; 0; 1])))
               (Shr Element (Xor (Shl Bitwise (Slice [129]) 13) (Slice [255; 255])) 9) in
  proper 8 e /\ sensible false 8 e = true /\ sensible true 8 e = false /\
  run_exp false 8 e = Ok [145; 191; 201; 1] /\ run_exp true 8 e = Panic.
Proof.
  cbv zeta. split; [cbn; repeat split; try discriminate; repeat constructor; cbn; lia|].
  repeat split; vm_compute; reflexivity.
Qed.
