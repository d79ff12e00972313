(** Proofs about BigInt powers, printing and parsing. *)
From Coq Require Import ZArith List Bool Lia Permutation.
From Verif Require Import Base Words Spec TextSpec Arith BitSliceModel BitSliceProofs ElementModel
  BitwiseModel InternModel InternProofs BigIntModel BigIntSpec BigIntProofs BigIntOps BigIntConv.
Import ListNotations.
Local Open Scope Z_scope.

Lemma op_int_spec dbg op t P st hs a x v r : consistent P st (a :: hs) -> room P (a :: hs) 0 ->
  std_ty t -> in_range t v = true -> denotes st a x ->
  (forall st1 b, consistent P st1 (a :: b :: hs) -> denotes st1 a x -> denotes st1 b v -> b <> neg_zero ->
     yields P (a :: b :: hs) (op a b) st1 r) ->
  yields P hs (op_int dbg op t a v) st r.
Proof.
  intros Hc Hr Ht Hv Hx Hop.
  destruct (from_spec dbg P st (a :: hs) t v Hc Hr Ht Hv) as (b & st1 & E & C & K & D & N).
  apply (yields_after P st st1 hs _ (by_val op a b)).
  - unfold op_int. rewrite (mbind_ok _ _ _ _ _ E). auto.
  - eapply keeps_incl; [exact K|]. intros h Hh. cbn. auto.
  - apply by_val_spec. apply Hop; auto.
    + eapply con_perm; [apply perm_swap|exact C].
    + apply K; cbn; auto.
Qed.

Lemma std_i32 : std_ty t_i32. Proof. unfold std_ty. cbn. auto. Qed.
Lemma std_u32 : std_ty t_u32. Proof. unfold std_ty. cbn. auto. Qed.
Lemma std_u8 : std_ty t_u8. Proof. unfold std_ty. cbn. auto. Qed.
Lemma std_usize : std_ty t_usize. Proof. unfold std_ty. cbn. auto 6. Qed.

(** ** Powers *)

Lemma pow_loop_spec dbg P self hs x : self <> neg_zero -> room P (self :: hs) 4 ->
  forall n fuel st out rhs y z, 0 < y -> (Z.to_nat y <= n)%nat -> (n <= fuel)%nat ->
  consistent P st (out :: rhs :: self :: hs) ->
  denotes st self x -> denotes st rhs y -> denotes st out z -> rhs <> neg_zero -> out <> neg_zero ->
  exists rhs' out' st', bi_pow_loop dbg fuel self rhs out st = Ok ((rhs', out'), st') /\
    consistent P st' (out' :: rhs' :: self :: hs) /\ keeps st st' (self :: hs) /\
    denotes st' out' (z * x ^ (y - 1)) /\ out' <> neg_zero.
Proof.
  intros Ns Hroom. induction n as [|n IH]; intros fuel st out rhs y z Hy Hn Hfuel Hc Hx Hyd Hz Nr No; [lia|].
  destruct fuel as [|fuel]; [lia|]. cbn [bi_pow_loop].
  assert (room P (rhs :: self :: hs) 3) as R1 by (apply room_cons; auto).
  assert (room P (out :: rhs :: self :: hs) 2) as R2 by (apply room_cons; auto).
  destruct (bi_cmp_int_spec dbg t_i32 P st (out :: rhs :: self :: hs) rhs y 1 Hc) as (st1 & E1 & C1 & K1); auto.
  { eapply room_le; [|exact R2]. lia. }
  { cbn; auto. }
  { apply std_i32. }
  { unfold cmp_dom. lia. }
  rewrite (mbind_ok _ _ _ _ _ E1).
  destruct (Z.compare_spec y 1) as [Ey|Ey|Ey]; [| lia |].
  - exists rhs, out, st1. split; [reflexivity|]. split; auto. split.
    { eapply keeps_incl; [exact K1|]. intros h Hh. cbn in *. tauto. }
    split; auto. subst y. cbn [Z.pow Z.sub Z.add Z.opp Z.pos_sub]. rewrite Z.mul_1_r. apply K1; cbn; auto.
  - destruct (clone_spec dbg P st1 (out :: rhs :: self :: hs) self C1) as (st2 & E2 & C2 & K2).
    { eapply room_le; [|exact R2]. lia. }
    { cbn; auto. }
    rewrite (mbind_ok _ _ _ _ _ E2).
    assert (forall h v, In h (out :: rhs :: self :: hs) -> denotes st h v -> denotes st2 h v) as K12.
    { intros h v Hh Hv. apply K2, K1; auto. }
    destruct (by_val_spec (bi_mul dbg) P st2 (rhs :: self :: hs) out self (z * x)) as (out' & st3 & E3 & C3 & K3 & D3 & N3).
    { apply bi_mul_spec; cbn; auto.
      - eapply con_perm; [|exact C2]. constructor.
      - apply room_cons. apply room_cons. apply room_cons. eapply room_le; [|exact Hroom]. lia.
      - apply K12; cbn; auto.
      - apply K12; cbn; auto. }
    rewrite (mbind_ok _ _ _ _ _ E3).
    assert (consistent P st3 (rhs :: out' :: self :: hs)) as C3' by (eapply con_perm; [apply perm_swap|exact C3]).
    assert (room P (out' :: self :: hs) 3) as R3 by (apply room_cons; auto).
    assert (room P (rhs :: out' :: self :: hs) 2) as R4 by (apply room_cons; auto).
    assert (denotes st3 rhs y) as Hy3 by (apply K3; [cbn; auto|apply K12; cbn; auto]).
    assert (denotes st3 self x) as Hx3 by (apply K3; [cbn; auto|apply K12; cbn; auto]).
    destruct (op_int_spec dbg (bi_sub dbg) t_i32 P st3 (out' :: self :: hs) rhs y 1 (y - 1)) as (rhs' & st4 & E4 & C4 & K4 & D4 & N4); auto.
    { eapply room_le; [|exact R4]. lia. }
    { apply std_i32. }
    { intros st5 b C5 Da Db Nb.
      destruct (info _ _ _ rhs y C5 ltac:(cbn; auto) Da) as (_ & _ & _ & _ & _ & _ & _ & _ & O1).
      destruct (info _ _ _ b 1 C5 ltac:(cbn; auto) Db) as (_ & _ & _ & _ & _ & _ & _ & _ & O2).
      specialize (O1 Nr). specialize (O2 Nb). rewrite (proj2 (Z.ltb_ge y 0)) in O1 by lia. change (1 <? 0) with false in O2.
      replace (y - 1) with (add_result (Z.odd rhs) (negb (Z.odd b)) y (-(1))).
      - apply bi_sub_spec; cbn; auto. apply room_cons.
        assert (Permutation (rhs :: out' :: self :: hs) (rhs :: out' :: self :: hs)) by auto.
        unfold room in *. pose proof (live_cons_le b (out' :: self :: hs)).
        pose proof (live_cons_le rhs (b :: out' :: self :: hs)). pose proof (live_cons_le rhs (out' :: self :: hs)). lia.
      - rewrite O1, O2. unfold add_result. cbn [negb Bool.eqb andb].
        rewrite (proj2 (Z.ltb_ge (Z.abs y) (Z.abs (- (1))))) by lia. cbn [andb]. lia. }
    rewrite (mbind_ok _ _ _ _ _ E4).
    destruct (IH fuel st4 out' rhs' (y - 1) (z * x)) as (rhs2 & out2 & st5 & E5 & C5 & K5 & D5 & N5); auto; try lia.
    { eapply con_perm; [apply perm_swap|exact C4]. }
    { apply K4; cbn; auto. }
    { apply K4; cbn; auto. }
    exists rhs2, out2, st5. split; auto. split; auto. split; [|split; auto].
    + intros h v Hh Hv. apply K5; auto. apply K4; [cbn in *; tauto|]. apply K3; [cbn in *; tauto|]. apply K12; [cbn in *; tauto|auto].
    + replace (z * x ^ (y - 1)) with (z * x * x ^ (y - 1 - 1)); auto.
      replace (y - 1) with (Z.succ (y - 1 - 1)) at 2 by lia. rewrite Z.pow_succ_r by lia. lia.
Qed.

Lemma bi_pow_spec dbg P st hs self rhs x y : consistent P st (self :: rhs :: hs) -> room P hs 6 ->
  denotes st self x -> denotes st rhs y -> self <> neg_zero -> rhs <> neg_zero -> 0 <= y ->
  forall fuel, (Z.to_nat y <= fuel)%nat -> yields P hs (bi_pow dbg fuel self rhs) st (x ^ y).
Proof.
  intros Hc Hroom Hx Hyd Ns Nr Hy fuel Hfuel. unfold bi_pow, yields.
  assert (room P (rhs :: hs) 5) as R1 by (apply room_cons; auto).
  assert (room P (self :: rhs :: hs) 4) as R2 by (apply room_cons; auto).
  assert (room P (self :: hs) 5) as R3 by (apply room_cons; auto).
  rewrite (mbind_ok _ _ _ _ _ (reads_ok (fun st => bi_eq_int dbg t_i32 st rhs 0) _ _
    (bi_eq_signed dbg t_i32 P st (self :: rhs :: hs) rhs y 0 Hc ltac:(cbn; auto) Hyd std_i32 eq_refl eq_refl Nr ltac:(right; discriminate)))).
  destruct (Z.eqb_spec y 0) as [->|Hne].
  - destruct (from_spec dbg P st (self :: rhs :: hs) t_i32 1 Hc ltac:(eapply room_le; [|exact R2]; lia) std_i32 eq_refl) as (one & st1 & E1 & C1 & K1 & D1 & N1).
    rewrite (mbind_ok _ _ _ _ _ E1).
    destruct (drop_spec P st1 (one :: self :: hs) rhs) as (st2 & E2 & C2 & K2).
    { eapply con_perm; [|exact C1]. etransitivity; [apply perm_skip, perm_swap|apply perm_swap]. }
    rewrite (mbind_ok _ _ _ _ _ E2).
    destruct (drop_spec P st2 (one :: hs) self) as (st3 & E3 & C3 & K3).
    { eapply con_perm; [|exact C2]. apply perm_swap. }
    rewrite (mbind_ok _ _ _ _ _ E3).
    exists one, st3. split; [reflexivity|]. split; auto. split; [|split; auto].
    + intros h v Hh Hv. apply K3; [cbn; auto|]. apply K2; [cbn; auto|]. apply K1; cbn; auto.
    + rewrite Z.pow_0_r. apply K3; [cbn; auto|]. apply K2; cbn; auto.
  - destruct (clone_spec dbg P st (self :: rhs :: hs) self Hc) as (st1 & E1 & C1 & K1).
    { eapply room_le; [|exact R2]. lia. }
    { cbn; auto. }
    rewrite (mbind_ok _ _ _ _ _ E1).
    destruct (pow_loop_spec dbg P self hs x Ns ltac:(eapply room_le; [|exact R3]; lia) (Z.to_nat y) fuel st1 self rhs y x)
      as (rhs' & out' & st2 & E2 & C2 & K2 & D2 & N2); auto; try lia.
    { eapply con_perm; [|exact C1]. constructor. apply perm_swap. }
    { apply K1; cbn; auto. }
    { apply K1; cbn; auto. }
    { apply K1; cbn; auto. }
    rewrite (mbind_ok _ _ _ _ _ E2). cbv beta iota.
    destruct (drop_spec P st2 (out' :: self :: hs) rhs') as (st3 & E3 & C3 & K3).
    { eapply con_perm; [|exact C2]. apply perm_swap. }
    rewrite (mbind_ok _ _ _ _ _ E3).
    destruct (drop_spec P st3 (out' :: hs) self) as (st4 & E4 & C4 & K4).
    { eapply con_perm; [|exact C3]. apply perm_swap. }
    rewrite (mbind_ok _ _ _ _ _ E4).
    exists out', st4. split; [reflexivity|]. split; auto. split; [|split; auto].
    + intros h v Hh Hv. apply K4; [cbn; auto|]. apply K3; [cbn; auto|]. apply K2; [cbn; auto|]. apply K1; cbn; auto.
    + replace (x ^ y) with (x * x ^ (y - 1)); [apply K4; [cbn; auto|]; apply K3; cbn; auto|].
      replace y with (Z.succ (y - 1)) at 2 by lia. rewrite Z.pow_succ_r by lia. lia.
Qed.

(** ** Printing *)

Lemma addressable_le x y : Z.abs x <= Z.abs y -> addressable y -> addressable x.
Proof.
  unfold addressable. intros H Hy. pose proof (Z.log2_le_mono _ _ H). lia.
Qed.

Lemma from_checked_spec dbg t P st hs a x : consistent P st (a :: hs) -> room P (a :: hs) 0 -> denotes st a x ->
  std_ty t -> isigned t = false -> a <> neg_zero ->
  returns P hs (bi_from_checked dbg t a) st (if in_range t x then Some x else None).
Proof.
  intros Hc Hr Hx Ht Hu Na.
  destruct (try_from_unsigned dbg t P st (a :: hs) a x Hc Hr ltac:(cbn; auto) Hx Ht Hu Na) as (st1 & E1 & C1 & K1).
  destruct (drop_spec P st1 hs a C1) as (st2 & E2 & C2 & K2).
  exists st2. split; [|split; auto].
  - unfold bi_from_checked, bi_try_from_val. rewrite mbind_assoc. rewrite (mbind_ok _ _ _ _ _ E1).
    rewrite mbind_assoc. rewrite (mbind_ok _ _ _ _ _ E2). unfold mbind, ret. cbn [bind]. f_equal. f_equal.
    unfold in_range, imin. rewrite Hu.
    rewrite !Z.leb_antisym. destruct (x <? 0); cbn [negb andb]; auto. destruct (imax t <? x); cbn [negb]; auto.
  - intros h v Hh Hv. apply K2; auto. apply K1; cbn; auto.
Qed.

Lemma digits_spec dbg P hs base : 2 <= base <= 36 -> room P hs 5 ->
  forall n fuel st scratch z acc, 0 <= z < 2 ^ Z.of_nat n -> (n < fuel)%nat ->
  consistent P st (scratch :: hs) -> denotes st scratch z -> scratch <> neg_zero -> addressable z ->
  exists ls st', bi_digits dbg fuel base scratch acc st = Ok (acc ++ ls, st') /\ consistent P st' hs /\
    keeps st st' hs /\ Forall (fun d => 0 <= d < base) ls /\ digits_val base (rev ls) = z /\
    (z = 0 -> ls = []) /\ (0 < z -> last ls 0 <> 0 /\ ls <> []).
Proof.
  intros Hbase Hroom.
  assert (in_range t_usize base = true) as Hbr.
  { apply in_range_iff. change (imin t_usize) with 0. change (imax t_usize) with (2 ^ 64 - 1). lia. }
  induction n as [|n IH]; intros fuel st scratch z acc Hz Hfuel Hc Hd Ns Haddr; (destruct fuel as [|fuel]; [lia|]); cbn [bi_digits];
  assert (room P (scratch :: hs) 4) as R1 by (apply room_cons; auto);
  destruct (bi_cmp_int_spec dbg t_i32 P st (scratch :: hs) scratch z 0 Hc ltac:(eapply room_le; [|exact R1]; lia)
    ltac:(cbn; auto) Hd std_i32 eq_refl Ns ltac:(unfold cmp_dom; cbn; lia)) as (st1 & E1 & C1 & K1);
  rewrite (mbind_ok _ _ _ _ _ E1).
  - assert (z = 0) as -> by (cbn in Hz; lia). cbn [Z.compare].
    destruct (drop_spec P st1 hs scratch C1) as (st2 & E2 & C2 & K2).
    rewrite (mbind_ok _ _ _ _ _ E2). exists [], st2. rewrite app_nil_r.
    split; [reflexivity|]. split; auto. split; [intros h v Hh Hv; apply K2; auto; apply K1; cbn; auto|].
    split; auto. split; [reflexivity|]. split; auto. lia.
  - destruct (Z.compare_spec z 0) as [E|E|E]; [|lia|].
    { subst z. destruct (drop_spec P st1 hs scratch C1) as (st2 & E2 & C2 & K2).
      rewrite (mbind_ok _ _ _ _ _ E2). exists [], st2. rewrite app_nil_r.
      split; [reflexivity|]. split; auto. split; [intros h v Hh Hv; apply K2; auto; apply K1; cbn; auto|].
      split; auto. split; [reflexivity|]. split; auto. lia. }
    assert (div_dom z base) as Hdd by (unfold div_dom; split; [lia|split; [auto|lia]]).
    assert (denotes st1 scratch z) as Hd1 by (apply K1; cbn; auto).
    destruct (clone_spec dbg P st1 (scratch :: hs) scratch C1 ltac:(eapply room_le; [|exact R1]; lia) ltac:(cbn; auto))
      as (st2 & E2 & C2 & K2).
    rewrite (mbind_ok _ _ _ _ _ E2).
    assert (denotes st2 scratch z) as Hd2 by (apply K2; cbn; auto).
    assert (room P (scratch :: scratch :: hs) 3) as R2 by (apply room_cons; auto).
    destruct (op_int_spec dbg (bi_rem dbg) t_usize P st2 (scratch :: hs) scratch z base (Z.rem z base * Z.sgn base))
      as (m & st3 & E3 & C3 & K3 & D3 & N3); auto.
    { eapply room_le; [|exact R2]. lia. }
    { apply std_usize. }
    { intros st5 b C5 Da Db Nb. apply bi_rem_spec; auto; [|cbn; auto|cbn; auto].
      unfold room in *. pose proof (live_cons_le b (scratch :: hs)). pose proof (live_cons_le scratch (b :: scratch :: hs)).
      pose proof (live_cons_le scratch hs). lia. }
    rewrite (mbind_ok _ _ _ _ _ E3).
    rewrite Z.sgn_pos, Z.mul_1_r, Z.rem_mod_nonneg in D3 by lia.
    pose proof (Z.mod_pos_bound z base ltac:(lia)) as Hm.
    destruct (from_checked_spec dbg t_u8 P st3 (scratch :: hs) m (z mod base) C3) as (st4 & E4 & C4 & K4); auto.
    { apply room_cons. eapply room_le; [|exact R1]. lia. }
    { apply std_u8. }
    rewrite (mbind_ok _ _ _ _ _ E4).
    assert (in_range t_u8 (z mod base) = true) as Hu8.
    { apply in_range_iff. change (imin t_u8) with 0. change (imax t_u8) with 255. lia. }
    rewrite Hu8. rewrite (mbind_ok _ _ st4 (z mod base) st4) by reflexivity.
    assert (denotes st4 scratch z) as Hd4 by (apply K4; [cbn; auto|]; apply K3; cbn; auto).
    destruct (op_int_spec dbg (bi_div dbg) t_usize P st4 hs scratch z base (Z.quot z base))
      as (s2 & st5 & E5 & C5 & K5 & D5 & N5); auto.
    { eapply room_le; [|exact R1]. lia. }
    { apply std_usize. }
    { intros st6 b C6 Da Db Nb. apply bi_div_spec; auto; [|cbn; auto|cbn; auto].
      unfold room in *. pose proof (live_cons_le b hs). pose proof (live_cons_le scratch (b :: hs)). lia. }
    rewrite (mbind_ok _ _ _ _ _ E5).
    rewrite Z.quot_div_nonneg in D5 by lia.
    assert (0 <= z / base < 2 ^ Z.of_nat n) as Hzn.
    { split; [apply Z.div_pos; lia|]. apply Z.div_lt_upper_bound; [lia|].
      replace (Z.of_nat (S n)) with (Z.succ (Z.of_nat n)) in Hz by lia. rewrite Z.pow_succ_r in Hz by lia.
      assert (2 * 2 ^ Z.of_nat n <= base * 2 ^ Z.of_nat n); [|lia].
      apply Z.mul_le_mono_nonneg_r; [apply Z.pow_nonneg; lia|lia]. }
    assert (z / base <= z) as Hdle.
    { apply Z.div_le_upper_bound; [lia|]. assert (1 * z <= base * z) by (apply Z.mul_le_mono_nonneg_r; lia). lia. }
    destruct (IH fuel st5 s2 (z / base) (acc ++ [z mod base])) as (ls & st6 & E6 & C6 & K6 & F6 & V6 & Z6 & L6); auto; try lia.
    { eapply addressable_le; [|exact Haddr]. lia. }
    exists (z mod base :: ls), st6. rewrite <- app_assoc in E6. split; auto. split; auto. split.
    { intros h v Hh Hv. apply K6; auto. apply K5; auto. apply K4; [cbn; auto|]. apply K3; [cbn; auto|].
      apply K2; [cbn; auto|]. apply K1; cbn; auto. }
    split; [constructor; auto|]. split.
    { cbn [rev]. unfold digits_val in *. rewrite fold_left_app. cbn [fold_left]. rewrite V6.
      rewrite (Z.div_mod z base) at 3 by lia. lia. }
    split; [lia|]. intros _. split; [|discriminate].
    destruct (Z.eq_dec (z / base) 0) as [Ez|Ez].
    + rewrite (Z6 Ez). cbn [last]. pose proof (Z.div_mod z base ltac:(lia)). lia.
    + destruct (L6 ltac:(lia)) as [L7 L8]. destruct ls; [congruence|]. cbn [last] in *. auto.
Qed.

Lemma chars_map (chars : list Z) (f : Z -> Z) (ds : list Z) : Forall (fun d => 0 <= d < Z.of_nat (length chars)) ds ->
  (forall d, 0 <= d < Z.of_nat (length chars) -> nth_error chars (Z.to_nat d) = Some (f d)) ->
  forall acc, foldR (fun out d => do c <- unwrap (nth_error chars (Z.to_nat d)) ;; Ok (out ++ [c])) ds acc =
    Ok (acc ++ map f ds).
Proof.
  intros Hf Hch. induction Hf as [|d ds Hd Hf IH]; intros acc; cbn [foldR map].
  - rewrite app_nil_r. auto.
  - rewrite (Hch d Hd). cbn [unwrap bind]. rewrite IH. rewrite <- app_assoc. auto.
Qed.

Lemma hd_rev_last (l : list Z) : hd 0 (rev l) = last l 0.
Proof.
  induction l as [|x l IH] using rev_ind; [reflexivity|].
  rewrite rev_app_distr. cbn. rewrite last_last. auto.
Qed.

Lemma write_base_spec dbg P hs base chars f st a x : 2 <= base <= 36 -> Z.of_nat (length chars) = base ->
  (forall d, 0 <= d < base -> nth_error chars (Z.to_nat d) = Some (f d)) ->
  room P hs 5 -> consistent P st hs -> In a hs -> denotes st a x -> 0 <= x -> a <> neg_zero -> addressable x ->
  forall fuel, (Z.to_nat (Z.log2 x) + 1 < fuel)%nat ->
  exists ds, returns P hs (bi_write_base dbg fuel a base chars) st (map f ds) /\
    Forall (fun d => 0 <= d < base) ds /\ digits_val base ds = x /\ (ds = [0] \/ (ds <> [] /\ hd 0 ds <> 0)).
Proof.
  intros Hbase Hlen Hch Hroom Hc Ha Hx Hpos Na Haddr fuel Hfuel.
  destruct (clone_spec dbg P st hs a Hc ltac:(eapply room_le; [|exact Hroom]; lia) Ha) as (st1 & E1 & C1 & K1).
  assert (0 <= x < 2 ^ Z.of_nat (Z.to_nat (Z.log2 x) + 1)) as Hb.
  { split; auto. rewrite Nat2Z.inj_add, Z2Nat.id by apply Z.log2_nonneg.
    destruct (Z.eq_dec x 0) as [->|]; [cbn; lia|]. apply Z.log2_spec. lia. }
  destruct (digits_spec dbg P hs base Hbase Hroom _ fuel st1 a x [] Hb Hfuel C1 ltac:(apply K1; auto) Na Haddr)
    as (ls & st2 & E2 & C2 & K2 & F & V & Z0 & L). cbn [app] in E2.
  set (ds := rev (match ls with [] => [0] | _ => ls end)).
  assert (Forall (fun d => 0 <= d < base) ds) as Fds.
  { apply Forall_rev. destruct ls; auto. constructor; [lia|constructor]. }
  exists ds. split; [|split; auto].
  - exists st2. split; [|split; auto].
    + unfold bi_write_base. rewrite (mbind_ok _ _ _ _ _ E1). rewrite (mbind_ok _ _ _ _ _ E2). cbv zeta.
      fold ds. apply lift_ok. rewrite (chars_map chars f ds); auto; rewrite ?Hlen; auto.
    + intros h v Hh Hv. apply K2; auto.
  - unfold ds. destruct ls as [|d ls].
    + split; [|left; reflexivity]. cbn in V |- *. auto.
    + split; auto. right. split.
      * intros Q. apply (f_equal (@length Z)) in Q. rewrite rev_length in Q. discriminate.
      * rewrite hd_rev_last. destruct (Z.eq_dec x 0) as [E0|E0]; [specialize (Z0 E0); discriminate|]. apply L. lia.
Qed.

Lemma write_base_neg dbg P hs base chars st a x c0 : nth_error chars 0 = Some c0 ->
  room P hs 5 -> consistent P st hs -> In a hs -> denotes st a x -> x < 0 ->
  forall fuel, (1 <= fuel)%nat -> returns P hs (bi_write_base dbg fuel a base chars) st [c0].
Proof.
  intros Hch Hroom Hc Ha Hx Hneg fuel Hfuel.
  destruct (clone_spec dbg P st hs a Hc ltac:(eapply room_le; [|exact Hroom]; lia) Ha) as (st1 & E1 & C1 & K1).
  assert (a <> neg_zero) as Na.
  { intros ->. unfold denotes in Hx. cbn in Hx. lia. }
  assert (denotes st1 a x) as Hx1 by (apply K1; auto).
  destruct (bi_cmp_int_spec dbg t_i32 P st1 (a :: hs) a x 0 C1 ltac:(apply room_cons; eapply room_le; [|exact Hroom]; lia)
    ltac:(cbn; auto) Hx1 std_i32 eq_refl Na ltac:(unfold cmp_dom; cbn; lia)) as (st2 & E2 & C2 & K2).
  destruct (drop_spec P st2 hs a C2) as (st3 & E3 & C3 & K3).
  exists st3. split; [|split; auto].
  - destruct fuel as [|fuel]; [lia|].
    unfold bi_write_base. rewrite (mbind_ok _ _ _ _ _ E1).
    assert (bi_digits dbg (S fuel) base a [] st1 = Ok ([], st3)) as Ed.
    { cbn [bi_digits]. rewrite (mbind_ok _ _ _ _ _ E2). rewrite (proj2 (Z.compare_lt_iff x 0)) by auto.
      rewrite (mbind_ok _ _ _ _ _ E3). reflexivity. }
    rewrite (mbind_ok _ _ _ _ _ Ed). apply lift_ok. cbn [rev app foldR Z.to_nat]. rewrite Hch. reflexivity.
  - intros h v Hh Hv. apply K3; auto. apply K2; [cbn; auto|]. apply K1; auto.
Qed.

Lemma dec_digits_nth d : 0 <= d < 10 -> nth_error dec_digits (Z.to_nat d) = Some (digit_char d).
Proof.
  intros H. assert (d = 0 \/ d = 1 \/ d = 2 \/ d = 3 \/ d = 4 \/ d = 5 \/ d = 6 \/ d = 7 \/ d = 8 \/ d = 9) as Q by lia.
  repeat destruct Q as [->|Q]; try reflexivity. subst d. reflexivity.
Qed.

Lemma lower_hex_nth d : 0 <= d < 16 -> nth_error lower_hex (Z.to_nat d) = Some (digit_char d).
Proof.
  intros H. assert (d = 0 \/ d = 1 \/ d = 2 \/ d = 3 \/ d = 4 \/ d = 5 \/ d = 6 \/ d = 7 \/ d = 8 \/ d = 9 \/
    d = 10 \/ d = 11 \/ d = 12 \/ d = 13 \/ d = 14 \/ d = 15) as Q by lia.
  repeat destruct Q as [->|Q]; try reflexivity. subst d. reflexivity.
Qed.

Definition upper_char (d : Z) : Z := if d <? 10 then 48 + d else 55 + d.
Lemma upper_hex_nth d : 0 <= d < 16 -> nth_error upper_hex (Z.to_nat d) = Some (upper_char d).
Proof.
  intros H. assert (d = 0 \/ d = 1 \/ d = 2 \/ d = 3 \/ d = 4 \/ d = 5 \/ d = 6 \/ d = 7 \/ d = 8 \/ d = 9 \/
    d = 10 \/ d = 11 \/ d = 12 \/ d = 13 \/ d = 14 \/ d = 15) as Q by lia.
  repeat destruct Q as [->|Q]; try reflexivity. subst d. reflexivity.
Qed.

(** ** Parsing *)

Lemma insens_chars_seq : insens_chars = map (fun n => digit_char (Z.of_nat n)) (seq 0 36).
Proof. reflexivity. Qed.

Lemma firstn_seq n : forall i m, (n <= m)%nat -> firstn n (seq i m) = seq i n.
Proof. induction n as [|n IH]; intros i [|m] H; cbn; auto; try lia. f_equal. apply IH. lia. Qed.

Lemma char_digit_range c d : char_digit c = Some d -> 0 <= d < 36 /\ ascii_lower c = digit_char d.
Proof.
  unfold char_digit, ascii_lower, digit_char.
  destruct (Z.leb_spec 48 c), (Z.leb_spec c 57), (Z.leb_spec 97 c), (Z.leb_spec c 122), (Z.leb_spec 65 c), (Z.leb_spec c 90);
    cbn [andb]; intros H'; try discriminate; try lia;
    (match type of H' with Some ?e = Some _ => assert (d = e) as -> by congruence end);
    (split; [lia|]); match goal with |- context [?e <? 10] => destruct (Z.ltb_spec e 10) end; lia.
Qed.

Lemma char_digit_none c d : char_digit c = None -> 0 <= d < 36 -> digit_char d <> ascii_lower c.
Proof.
  unfold char_digit, ascii_lower, digit_char. intros H Hd.
  destruct (Z.leb_spec 48 c), (Z.leb_spec c 57), (Z.leb_spec 97 c), (Z.leb_spec c 122), (Z.leb_spec 65 c), (Z.leb_spec c 90);
    cbn [andb] in *; try discriminate; destruct (Z.ltb_spec d 10); lia.
Qed.

Lemma digit_char_inj d e : 0 <= d < 36 -> 0 <= e < 36 -> digit_char d = digit_char e -> d = e.
Proof. unfold digit_char. intros Hd He. destruct (Z.ltb_spec d 10), (Z.ltb_spec e 10); lia. Qed.

Lemma char_digit_char d : 0 <= d < 36 -> char_digit (digit_char d) = Some d.
Proof.
  unfold char_digit, digit_char. intros Hd. destruct (Z.ltb_spec d 10).
  - rewrite (proj2 (Z.leb_le 48 (48 + d))), (proj2 (Z.leb_le (48 + d) 57)) by lia. cbn [andb]. f_equal. lia.
  - rewrite (proj2 (Z.leb_gt (87 + d) 57)) by lia. rewrite andb_false_r.
    rewrite (proj2 (Z.leb_le 97 (87 + d))), (proj2 (Z.leb_le (87 + d) 122)) by lia. cbn [andb]. f_equal. lia.
Qed.
Lemma char_digit_upper d : 0 <= d < 36 -> char_digit (upper_char d) = Some d.
Proof.
  unfold char_digit, upper_char. intros Hd. destruct (Z.ltb_spec d 10).
  - rewrite (proj2 (Z.leb_le 48 (48 + d))), (proj2 (Z.leb_le (48 + d) 57)) by lia. cbn [andb]. f_equal. lia.
  - rewrite (proj2 (Z.leb_gt (55 + d) 57)) by lia. rewrite andb_false_r.
    rewrite (proj2 (Z.leb_gt 97 (55 + d))) by lia. cbn [andb].
    rewrite (proj2 (Z.leb_le 65 (55 + d))), (proj2 (Z.leb_le (55 + d) 90)) by lia. cbn [andb]. f_equal. lia.
Qed.

Lemma char_pos_spec c n : forall i, (i + n <= 36)%nat ->
  char_pos c (map (fun n => digit_char (Z.of_nat n)) (seq i n)) (Z.of_nat i) =
  match char_digit c with
  | Some d => if (Z.of_nat i <=? d) && (d <? Z.of_nat (i + n)) then Some d else None
  | None => None
  end.
Proof.
  induction n as [|n IH]; intros i Hi; cbn [seq map char_pos].
  - destruct (char_digit c) as [d|]; auto. rewrite Nat.add_0_r.
    destruct (Z.leb_spec (Z.of_nat i) d), (Z.ltb_spec d (Z.of_nat i)); cbn [andb]; auto; lia.
  - replace (Z.of_nat i + 1) with (Z.of_nat (S i)) by lia. rewrite IH by lia.
    destruct (char_digit c) as [d|] eqn:E.
    + destruct (char_digit_range c d E) as [Hd ->]. destruct (Z.eqb_spec (digit_char (Z.of_nat i)) (digit_char d)) as [Q|Q].
      * apply digit_char_inj in Q; [|lia|auto]. subst d.
        rewrite Z.leb_refl, (proj2 (Z.ltb_lt _ _)) by lia. reflexivity.
      * assert (d <> Z.of_nat i) by (intros ->; congruence).
        replace (S i + n)%nat with (i + S n)%nat by lia.
        destruct (Z.leb_spec (Z.of_nat (S i)) d), (Z.leb_spec (Z.of_nat i) d); auto; lia.
    + destruct (Z.eqb_spec (digit_char (Z.of_nat i)) (ascii_lower c)) as [Q|Q]; auto.
      exfalso. apply (char_digit_none c (Z.of_nat i) E); auto. lia.
Qed.

Lemma val_from_char_spec c radix : 0 <= radix <= 36 ->
  val_from_char c radix = match char_digit c with
    | Some d => if d <? radix then inl d else inr (InvalidChar c)
    | None => inr (InvalidChar c)
    end.
Proof.
  intros Hr. unfold val_from_char. rewrite (proj2 (Z.leb_le _ _)) by lia.
  rewrite insens_chars_seq, firstn_map, firstn_seq by lia.
  change 0 with (Z.of_nat 0) at 1. rewrite char_pos_spec by lia.
  destruct (char_digit c) as [d|] eqn:E; auto.
  destruct (char_digit_range c d E) as [Hd _].
  rewrite (proj2 (Z.leb_le (Z.of_nat 0) d)) by lia. cbn [andb]. replace (Z.of_nat (0 + Z.to_nat radix)) with radix by lia.
  destruct (d <? radix); auto.
Qed.

Lemma parse_step dbg P st hs out v radix d : consistent P st (out :: hs) -> room P hs 3 -> denotes st out v ->
  out <> neg_zero -> 0 <= v -> 0 <= radix <= 36 -> 0 <= d < 36 ->
  yields P hs (let! p := op_int dbg (bi_mul dbg) t_u32 out radix in op_int dbg (bi_add dbg) t_u32 p d) st (v * radix + d).
Proof.
  intros Hc Hroom Hv No Hpos Hrad Hd. unfold yields.
  assert (room P (out :: hs) 2) as R1 by (apply room_cons; auto).
  assert (forall n, 0 <= n <= 36 -> in_range t_u32 n = true) as Hin.
  { intros n Hn. apply in_range_iff. change (imin t_u32) with 0. change (imax t_u32) with (2 ^ 32 - 1). lia. }
  destruct (op_int_spec dbg (bi_mul dbg) t_u32 P st hs out v radix (v * radix)) as (p & st1 & E1 & C1 & K1 & D1 & N1); auto.
  { eapply room_le; [|exact R1]. lia. }
  { apply std_u32. }
  { intros st1 b C Da Db Nb. apply bi_mul_spec; auto; [|cbn; auto|cbn; auto]. do 2 apply room_cons.
    eapply room_le; [|exact Hroom]. lia. }
  rewrite (mbind_ok _ _ _ _ _ E1).
  assert (room P (p :: hs) 2) as R2 by (apply room_cons; auto).
  destruct (op_int_spec dbg (bi_add dbg) t_u32 P st1 hs p (v * radix) d (v * radix + d)) as (q & st2 & E2 & C2 & K2 & D2 & N2); auto.
  { eapply room_le; [|exact R2]. lia. }
  { apply std_u32. }
  { apply Hin. lia. }
  { intros st3 b C Da Db Nb.
    destruct (info _ _ _ p _ C ltac:(cbn; auto) Da) as (_ & _ & _ & _ & _ & _ & _ & _ & O1).
    destruct (info _ _ _ b _ C ltac:(cbn; auto) Db) as (_ & _ & _ & _ & _ & _ & _ & _ & O2).
    specialize (O1 N1). specialize (O2 Nb).
    assert (0 <= v * radix) by (apply Z.mul_nonneg_nonneg; lia).
    rewrite (proj2 (Z.ltb_ge (v * radix) 0)) in O1 by lia. rewrite (proj2 (Z.ltb_ge d 0)) in O2 by lia.
    replace (v * radix + d) with (add_result (Z.odd p) (Z.odd b) (v * radix) d).
    - apply bi_add_spec; auto; [|cbn; auto|cbn; auto]. do 2 apply room_cons. eapply room_le; [|exact Hroom]. lia.
    - rewrite O1, O2. apply add_result_same. }
  exists q, st2. split; auto. split; auto. split; auto. eapply keeps_trans; eauto.
Qed.

Lemma parse_ok dbg P hs radix : 0 <= radix <= 36 -> room P hs 3 ->
  forall s ds st out v, spells radix s ds -> consistent P st (out :: hs) -> denotes st out v -> out <> neg_zero -> 0 <= v ->
  exists c st', bi_parse_loop dbg radix s out st = Ok (inl c, st') /\ consistent P st' (c :: hs) /\ keeps st st' hs /\
    denotes st' c (fold_left (fun acc d => acc * radix + d) ds v) /\ c <> neg_zero.
Proof.
  intros Hrad Hroom s ds st out v Hsp. revert st out v.
  induction Hsp as [|c d s ds [Hcd Hdr] Hsp IH]; intros st out v Hc Hv No Hpos; cbn [bi_parse_loop fold_left].
  - exists out, st. split; [reflexivity|]. split; auto. split; [apply keeps_refl|auto].
  - rewrite val_from_char_spec by auto. rewrite Hcd, (proj2 (Z.ltb_lt _ _)) by auto.
    destruct (char_digit_range c d Hcd) as [Hd _].
    destruct (parse_step dbg P st hs out v radix d Hc Hroom Hv No Hpos Hrad Hd) as (out' & st1 & E1 & C1 & K1 & D1 & N1).
    destruct (IH st1 out' (v * radix + d) C1 D1 N1) as (c2 & st2 & E2 & C2 & K2 & D2 & N2).
    { assert (0 <= v * radix) by (apply Z.mul_nonneg_nonneg; lia). lia. }
    exists c2, st2. split; [|split; auto; split; auto; eapply keeps_trans; eauto].
    rewrite <- (mbind_assoc (op_int dbg (bi_mul dbg) t_u32 out radix) (fun p => op_int dbg (bi_add dbg) t_u32 p d)).
    rewrite (mbind_ok _ _ _ _ _ E1). auto.
Qed.

(** The first character that is not a digit of the radix. *)
Lemma parse_err dbg P hs radix : 0 <= radix <= 36 -> room P hs 3 ->
  forall s1 c s2 ds st out v, spells radix s1 ds -> (forall d, char_digit c = Some d -> radix <= d) ->
  consistent P st (out :: hs) -> denotes st out v -> out <> neg_zero -> 0 <= v ->
  returns P hs (bi_parse_loop dbg radix (s1 ++ c :: s2) out) st (inr (InvalidChar c)).
Proof.
  intros Hrad Hroom s1 c s2 ds st out v Hsp. revert st out v.
  induction Hsp as [|c1 d s1 ds [Hcd Hdr] Hsp IH]; intros st out v Hbad Hc Hv No Hpos; cbn [app bi_parse_loop].
  - rewrite val_from_char_spec by auto.
    destruct (drop_spec P st hs out Hc) as (st2 & E2 & C2 & K2).
    exists st2. split; [|split; auto].
    destruct (char_digit c) as [d|].
    + rewrite (proj2 (Z.ltb_ge d radix)) by auto. rewrite (mbind_ok _ _ _ _ _ E2). reflexivity.
    + rewrite (mbind_ok _ _ _ _ _ E2). reflexivity.
  - rewrite val_from_char_spec by auto. rewrite Hcd, (proj2 (Z.ltb_lt _ _)) by auto.
    destruct (char_digit_range c1 d Hcd) as [Hd _].
    destruct (parse_step dbg P st hs out v radix d Hc Hroom Hv No Hpos Hrad Hd) as (out' & st1 & E1 & C1 & K1 & D1 & N1).
    apply (returns_after P st st1 hs _ (bi_parse_loop dbg radix (s1 ++ c :: s2) out')); auto.
    + rewrite <- (mbind_assoc (op_int dbg (bi_mul dbg) t_u32 out radix) (fun p => op_int dbg (bi_add dbg) t_u32 p d)).
      rewrite (mbind_ok _ _ _ _ _ E1). auto.
    + apply IH with (v := v * radix + d); auto.
      assert (0 <= v * radix) by (apply Z.mul_nonneg_nonneg; lia). lia.
Qed.

Lemma bi_new_spec P st hs : consistent P st hs ->
  exists z, bi_new = Ok z /\ consistent P st (z :: hs) /\ denotes st z 0 /\ z <> neg_zero.
Proof.
  intros Hc. destruct (inline_spec P st hs 0 false Hc ltac:(rewrite max_offset_val; lia)) as (c & E & C & D & N).
  exists c. auto.
Qed.
