(** C172: programs of in-place operations on buffers of a fixed size. *)
From Coq Require Import ZArith List Bool Lia.
From Verif Require Import Base Words Spec Arith BitSliceModel ElementModel ElemAddSub ElemMul ElemShift PropBits BufProgModel.
Import ListNotations.
Local Open Scope Z_scope.

(** The same program over the integers, without any limit. *)
Definition ideal_step (zs : list Z) (c : instr) : list Z :=
  match c with
  | AddTo i j => upd zs i (nth i zs 0 + nth j zs 0)
  | SubFrom i j => upd zs i (nth i zs 0 - nth j zs 0)
  | MulBy i j => upd zs i (nth i zs 0 * nth j zs 0)
  | NotOf i => upd zs i (- 1 - nth i zs 0)
  | ShlBy i s => upd zs i (nth i zs 0 * 2 ^ Z.of_nat s)
  end.

Definition ideal (cs : list instr) (zs : list Z) : list Z := fold_left ideal_step cs zs.

(** [k] buffers of [n] limbs of [w] bits. *)
Definition buffers (w n k : nat) (bufs : list (list Z)) : Prop :=
  length bufs = k /\ Forall (fun b => wf w b /\ length b = n) bufs.

(** The buffers named exist, no shift is by more than the whole buffer. *)
Definition legal (w n k : nat) (c : instr) : Prop :=
  match c with
  | AddTo i j | SubFrom i j | MulBy i j => (i < k)%nat /\ (j < k)%nat
  | NotOf i => (i < k)%nat
  | ShlBy i s => (i < k)%nat /\ (s <= w * n)%nat
  end.

(** All integers fit the buffers, at the start and after each step. *)
Fixpoint fits (m : Z) (cs : list instr) (zs : list Z) : Prop :=
  Forall (fun z => 0 <= z < m) zs /\ match cs with [] => True | c :: cs => fits m cs (ideal_step zs c) end.

Definition sums (c : instr) : Prop := match c with AddTo _ _ | SubFrom _ _ => True | _ => False end.
Definition products (c : instr) : Prop := match c with AddTo _ _ | SubFrom _ _ | MulBy _ _ => True | _ => False end.

Lemma map_upd {A B} (f : A -> B) l i v : map f (upd l i v) = upd (map f l) i (f v).
Proof. revert i. induction l as [|x l IH]; intros [|i]; cbn; auto. f_equal. apply IH. Qed.

Lemma nth_buf w bufs i : nth i (map (val w) bufs) 0 = val w (nth i bufs []).
Proof. rewrite <- (map_nth (val w) bufs [] i). reflexivity. Qed.

Lemma Forall_upd {A} (P : A -> Prop) l i v : Forall P l -> P v -> Forall P (upd l i v).
Proof. intros H Hv. revert i. induction H as [|x l Hx H IH]; intros [|i]; cbn; auto. Qed.

Lemma get_buf w n k bufs i : buffers w n k bufs -> (i < k)%nat -> wf w (nth i bufs []) /\ length (nth i bufs []) = n.
Proof. intros [L F] Hi. apply (proj1 (Forall_forall _ _) F). apply nth_In. lia. Qed.

Lemma put_buf w n k bufs i x : buffers w n k bufs -> wf w x -> length x = n -> buffers w n k (upd bufs i x).
Proof. intros [L F] W Lx. split; [rewrite length_upd; auto|]. apply Forall_upd; auto. Qed.

(** One step: what it writes, and what its flag says. *)
Lemma step_spec w n k bufs c : (0 < w)%nat -> buffers w n k bufs -> legal w n k c ->
  exists bufs' o, step_buf w bufs c = Ok (bufs', o) /\ buffers w n k bufs' /\
    map (val w) bufs' = map (fun z => z mod cap w n) (ideal_step (map (val w) bufs) c) /\
    (products c -> o = true -> ~ Forall (fun z => 0 <= z < cap w n) (ideal_step (map (val w) bufs) c)) /\
    (sums c -> o = false -> Forall (fun z => 0 <= z < cap w n) (ideal_step (map (val w) bufs) c)).
Proof.
  intros Hw B L.
  assert (R : Forall (fun z => 0 <= z < cap w n) (map (val w) bufs)).
  { destruct B as [_ F]. apply Forall_forall. intros z Hz. apply in_map_iff in Hz. destruct Hz as (b & <- & Hb).
    destruct (proj1 (Forall_forall _ _) F b Hb) as [Wb Lb]. pose proof (val_bound w b Wb) as V. rewrite Lb in V. exact V. }
  assert (Put : forall i x z, buffers w n k (upd bufs i x) -> val w x = z mod cap w n ->
    map (val w) (upd bufs i x) = map (fun z => z mod cap w n) (upd (map (val w) bufs) i z)).
  { intros i x z _ E. rewrite !map_upd, E. f_equal. symmetry. rewrite <- (map_id (map (val w) bufs)) at 2. apply map_ext_in. intros y Hy.
    apply Z.mod_small. exact (proj1 (Forall_forall _ _) R y Hy). }
  assert (Out : forall i z, (i < k)%nat -> Forall (fun z => 0 <= z < cap w n) (upd (map (val w) bufs) i z) -> 0 <= z < cap w n).
  { intros i z Hi F. assert (Len : (i < length (map (val w) bufs))%nat) by (rewrite map_length; destruct B; lia).
    pose proof (proj1 (Forall_forall _ _) F z) as K. apply K. replace z with (zget (upd (map (val w) bufs) i z) i) at 1 by (apply zget_upd_eq; exact Len). apply nth_In. rewrite length_upd. exact Len. }
  destruct c as [i j|i j|i j|i|i s]; cbn [legal step_buf ideal_step sums products] in *; rewrite ?nth_buf.
  - destruct L as [Hi Hj]. destruct (get_buf _ _ _ _ _ B Hi) as [Wi Li]. destruct (get_buf _ _ _ _ _ B Hj) as [Wj Lj].
    destruct (C02_add_overflowing w (nth i bufs []) (nth j bufs []) Hw Wi Wj ltac:(lia)) as (x & o & E & Lx & Wx & Vx & Fo & _).
    rewrite Li in *. rewrite E. assert (B' : buffers w n k (upd bufs i x)) by (apply put_buf; auto).
    exists (upd bufs i x), o. split; [reflexivity|]. split; [exact B'|]. split; [apply Put; auto|]. split; intros _ Ho.
    + intros F. apply Out in F; auto. apply Fo in Ho. lia.
    + apply Forall_upd; auto. pose proof (val_nonneg w _ Wi). pose proof (val_nonneg w _ Wj).
      destruct (Z.le_gt_cases (cap w n) (val w (nth i bufs []) + val w (nth j bufs []))) as [G|G]; [apply Fo in G; congruence|lia].
  - destruct L as [Hi Hj]. destruct (get_buf _ _ _ _ _ B Hi) as [Wi Li]. destruct (get_buf _ _ _ _ _ B Hj) as [Wj Lj].
    destruct (C04_sub_overflowing w (nth i bufs []) (nth j bufs []) Hw Wi Wj ltac:(lia)) as (x & o & E & Lx & Wx & Vx & Fo & _).
    pose proof (val_bound w _ Wi) as Bi. pose proof (val_nonneg w _ Wj).
    rewrite Li in *. rewrite E. assert (B' : buffers w n k (upd bufs i x)) by (apply put_buf; auto).
    exists (upd bufs i x), o. split; [reflexivity|]. split; [exact B'|]. split; [apply Put; auto|]. split; intros _ Ho.
    + intros F. apply Out in F; auto. apply Fo in Ho. lia.
    + apply Forall_upd; auto.
      destruct (Z.le_gt_cases (val w (nth j bufs [])) (val w (nth i bufs []))) as [G|G]; [lia|apply Fo in G; congruence].
  - destruct L as [Hi Hj]. destruct (get_buf _ _ _ _ _ B Hi) as [Wi Li]. destruct (get_buf _ _ _ _ _ B Hj) as [Wj Lj].
    destruct (C06_mul_wrapping w (nth i bufs []) (nth j bufs []) Hw Wi Wj) as (x & _ & E & Lx & Wx & Vx).
    destruct (C07_mul_flag_partial w (nth i bufs []) (nth j bufs []) Hw Wi Wj) as (Fo & _).
    destruct (elem_mul_overflowing w (nth i bufs []) (nth j bufs [])) as [x' o]. cbn [fst snd] in *. subst x'.
    rewrite Li in *. assert (B' : buffers w n k (upd bufs i x)) by (apply put_buf; auto).
    exists (upd bufs i x), o. split; [reflexivity|]. split; [exact B'|]. split; [apply Put; auto|]. split; [intros _ Ho|tauto].
    intros F. apply Out in F; auto. apply Fo in Ho. lia.
  - destruct (get_buf _ _ _ _ _ B L) as [Wi Li]. destruct (C13_not w (nth i bufs []) Wi) as (Lx & Wx & Vx).
    assert (B' : buffers w n k (upd bufs i (elem_not w (nth i bufs [])))) by (apply put_buf; auto; congruence).
    eexists _, false. split; [reflexivity|]. split; [exact B'|]. split; [|split; [discriminate|tauto]]. apply Put; auto.
    pose proof (val_bound w _ Wi) as Bi. rewrite Vx, Li in *. apply (Z.mod_unique_pos _ _ (-1)); lia.
  - destruct L as [Hi Hs]. destruct (get_buf _ _ _ _ _ B Hi) as [Wi Li].
    destruct (C09_shl_checked w (nth i bufs []) s Hw Wi) as [_ K]. rewrite Li in K. destruct (K Hs) as (x & E & Lx & Wx & Vx).
    rewrite E. cbn [bind]. assert (B' : buffers w n k (upd bufs i x)) by (apply put_buf; auto).
    eexists _, false. split; [reflexivity|]. split; [exact B'|]. split; [apply Put; auto|split; [discriminate|tauto]].
Qed.

Lemma nth_mod m zs i : nth i (map (fun z => z mod m) zs) 0 = nth i zs 0 mod m.
Proof. rewrite <- (map_nth (fun z => z mod m)). destruct m; reflexivity. Qed.

Lemma upd_mod m zs i x z : x mod m = z mod m ->
  map (fun z => z mod m) (upd (map (fun z => z mod m) zs) i x) = map (fun z => z mod m) (upd zs i z).
Proof.
  intros E. rewrite !map_upd, map_map, E. f_equal. apply map_ext. intros y. apply Zmod_mod.
Qed.

Lemma ideal_step_mod m zs c :
  map (fun z => z mod m) (ideal_step (map (fun z => z mod m) zs) c) = map (fun z => z mod m) (ideal_step zs c).
Proof.
  destruct c; cbn [ideal_step]; apply upd_mod; rewrite ?nth_mod.
  - rewrite <- Zplus_mod. reflexivity.
  - rewrite <- Zminus_mod. reflexivity.
  - rewrite <- Zmult_mod. reflexivity.
  - rewrite Zminus_mod_idemp_r. reflexivity.
  - rewrite Zmult_mod_idemp_l. reflexivity.
Qed.

(** Reducing at every step is as good as reducing once at the end; nothing panics and every call reports. *)
Theorem C172_modular : forall w n k cs bufs, (0 < w)%nat -> buffers w n k bufs -> Forall (legal w n k) cs ->
  exists bufs' flags, run_bufs w cs bufs = Ok (bufs', flags) /\ buffers w n k bufs' /\ length flags = length cs /\
    map (val w) bufs' = map (fun z => z mod 2 ^ Z.of_nat (w * n)) (ideal cs (map (val w) bufs)).
Proof.
  intros w n k cs bufs Hw B L. change (2 ^ Z.of_nat (w * n)) with (2 ^ Z.of_nat (w * n)).
  replace (2 ^ Z.of_nat (w * n)) with (cap w n) by (unfold cap; f_equal; lia).
  assert (G : forall zs, map (val w) bufs = map (fun z => z mod cap w n) zs -> exists bufs' flags, run_bufs w cs bufs = Ok (bufs', flags) /\
    buffers w n k bufs' /\ length flags = length cs /\ map (val w) bufs' = map (fun z => z mod cap w n) (ideal cs zs)).
  { revert bufs B. induction L as [|c cs Lc L IH]; intros bufs B zs E.
    - exists bufs, []. repeat split; auto; apply B.
    - destruct (step_spec w n k bufs c Hw B Lc) as (b1 & o & E1 & B1 & V1 & _). cbn [run_bufs]. rewrite E1. cbn [bind fst snd].
      rewrite E, ideal_step_mod in V1. destruct (IH b1 B1 _ V1) as (b2 & fl & E2 & B2 & Lf & V2). rewrite E2. cbn [bind fst snd].
      exists b2, (o :: fl). repeat split; auto; try apply B2. cbn [length]. congruence. }
  apply G. rewrite <- (map_id (map (val w) bufs)) at 1. apply map_ext_in. intros y Hy. symmetry. apply Z.mod_small.
  apply in_map_iff in Hy. destruct Hy as (b & <- & Hb). destruct B as [_ F]. destruct (proj1 (Forall_forall _ _) F b Hb) as [Wb Lb].
  rewrite <- Lb. apply val_bound. exact Wb.
Qed.
Print Assumptions C172_modular.

Lemma vals_in w n k bufs : buffers w n k bufs -> Forall (fun z => 0 <= z < cap w n) (map (val w) bufs).
Proof.
  intros [_ F]. apply Forall_forall. intros z Hz. apply in_map_iff in Hz. destruct Hz as (b & <- & Hb).
  destruct (proj1 (Forall_forall _ _) F b Hb) as [Wb Lb]. rewrite <- Lb. apply val_bound. exact Wb.
Qed.

Lemma mod_id m zs : Forall (fun z => 0 <= z < m) zs -> map (fun z => z mod m) zs = zs.
Proof. intros F. rewrite <- (map_id zs) at 2. apply map_ext_in. intros y Hy. apply Z.mod_small. exact (proj1 (Forall_forall _ _) F y Hy). Qed.

Lemma fits_head m cs zs : fits m cs zs -> Forall (fun z => 0 <= z < m) zs.
Proof. destruct cs; cbn [fits]; tauto. Qed.

(** No false alarms: when the integers fit all along, no sum, difference or product reports an overflow,
    and the buffers hold the integers themselves. *)
Theorem C172_no_alarm : forall w n k cs bufs, (0 < w)%nat -> buffers w n k bufs -> Forall (legal w n k) cs -> Forall products cs ->
  fits (2 ^ Z.of_nat (w * n)) cs (map (val w) bufs) ->
  exists bufs' flags, run_bufs w cs bufs = Ok (bufs', flags) /\ ~ In true flags /\ map (val w) bufs' = ideal cs (map (val w) bufs).
Proof.
  intros w n k cs bufs Hw B L P. replace (2 ^ Z.of_nat (w * n)) with (cap w n) by (unfold cap; f_equal; lia).
  revert bufs B P. induction L as [|c cs Lc L IH]; intros bufs B P F.
  - exists bufs, []. repeat split; auto.
  - destruct (step_spec w n k bufs c Hw B Lc) as (b1 & o & E1 & B1 & V1 & A1 & _). cbn [run_bufs]. rewrite E1. cbn [bind fst snd].
    destruct F as [_ F]. inversion P as [|? ? Pc P']; subst. pose proof (fits_head _ _ _ F) as F1. rewrite (mod_id _ _ F1) in V1.
    rewrite <- V1 in F. destruct (IH b1 B1 P' F) as (b2 & fl & E2 & N2 & V2). rewrite E2. cbn [bind fst snd].
    exists b2, (o :: fl). split; [reflexivity|]. split.
    + intros [->|I]; [|exact (N2 I)]. exact (A1 Pc eq_refl F1).
    + rewrite V2, V1. reflexivity.
Qed.
Print Assumptions C172_no_alarm.

(** No missed overflow: sums and differences that report nothing fit all along. *)
Theorem C172_reports : forall w n k cs bufs bufs' flags, (0 < w)%nat -> buffers w n k bufs -> Forall (legal w n k) cs -> Forall sums cs ->
  run_bufs w cs bufs = Ok (bufs', flags) -> ~ In true flags ->
  fits (2 ^ Z.of_nat (w * n)) cs (map (val w) bufs) /\ map (val w) bufs' = ideal cs (map (val w) bufs).
Proof.
  intros w n k cs bufs bufs' flags Hw B L. replace (2 ^ Z.of_nat (w * n)) with (cap w n) by (unfold cap; f_equal; lia).
  revert bufs bufs' flags B. induction L as [|c cs Lc L IH]; intros bufs bufs' flags B P E N.
  - cbn [run_bufs] in E. injection E as <- <-. cbn [fits ideal fold_left]. split; [split; [exact (vals_in _ _ _ _ B)|auto]|reflexivity].
  - destruct (step_spec w n k bufs c Hw B Lc) as (b1 & o & E1 & B1 & V1 & _ & A1). cbn [run_bufs] in E. rewrite E1 in E. cbn [bind fst snd] in E.
    inversion P as [|? ? Pc P']; subst. destruct (run_bufs w cs b1) as [[b2 fl]| |] eqn:E2; cbn [bind fst snd] in E; try discriminate.
    injection E as <- <-. assert (o = false) as -> by (destruct o; auto; exfalso; apply N; left; reflexivity).
    pose proof (A1 Pc eq_refl) as F1. rewrite (mod_id _ _ F1) in V1.
    destruct (IH b1 b2 fl B1 P' E2) as [F2 V2]. { intros I. apply N. right. exact I. }
    rewrite V1 in F2, V2. cbn [fits]. split; [split; [exact (vals_in _ _ _ _ B)|exact F2]|exact V2].
Qed.
Print Assumptions C172_reports.

(** A checked shift by more than the whole buffer says so and changes nothing: the rest of the program
    runs as if the call were not there. *)
Theorem C172_refused : forall w n k cs ds bufs i s bufs' flags, (0 < w)%nat -> buffers w n k bufs -> Forall (legal w n k) cs ->
  (i < k)%nat -> (w * n < s)%nat -> run_bufs w (cs ++ ds) bufs = Ok (bufs', flags) ->
  run_bufs w (cs ++ ShlBy i s :: ds) bufs = Ok (bufs', firstn (length cs) flags ++ true :: skipn (length cs) flags).
Proof.
  intros w n k cs ds bufs i s bufs' flags Hw B L Hi Hs. revert bufs bufs' flags B.
  induction L as [|c cs Lc L IH]; intros bufs bufs' flags B E.
  - cbn [app length firstn skipn] in *. cbn [run_bufs step_buf]. destruct (get_buf _ _ _ _ _ B Hi) as [Wi Li].
    rewrite (proj1 (C09_shl_checked w (nth i bufs []) s Hw Wi)) by (rewrite Li; exact Hs). cbn [bind fst snd]. rewrite E. reflexivity.
  - destruct (step_spec w n k bufs c Hw B Lc) as (b1 & o & E1 & B1 & _). cbn [app run_bufs] in *. rewrite E1 in *. cbn [bind fst snd] in *.
    destruct (run_bufs w (cs ++ ds) b1) as [[b2 fl]| |] eqn:E2; cbn [bind fst snd] in E; try discriminate. injection E as <- <-.
    rewrite (IH b1 b2 fl B1 E2). cbn [bind fst snd length firstn skipn app]. reflexivity.
Qed.
Print Assumptions C172_refused.

Example C172_refused_demo : buffers 8 2 1 [[5; 1]] /\ run_bufs 8 ([AddTo 0 0] ++ [NotOf 0]) [[5; 1]] = Ok ([[245; 253]], [false; false]) /\
  run_bufs 8 ([AddTo 0 0] ++ ShlBy 0 17 :: [NotOf 0]) [[5; 1]] = Ok ([[245; 253]], [false; true; false]).
Proof. split; [split; [reflexivity|]; repeat constructor; cbn; lia|]. split; vm_compute; reflexivity. Qed.

(** Wrapped intermediate values; the product overflows without a report (C07). *)
Example C172_demo :
  let cs := [AddTo 0 0; MulBy 0 1; SubFrom 1 0; NotOf 1; ShlBy 0 3; SubFrom 2 2; AddTo 2 1] in
  let bufs := [[255; 255]; [3; 1]; [7; 0]] in
  buffers 8 2 3 bufs /\ Forall (legal 8 2 3) cs /\
  run_bufs 8 cs bufs = Ok ([[208; 239]; [246; 252]; [246; 252]], [true; false; true; false; false; false; false]) /\
  ideal cs (map (val 8) bufs) = [271577040; 33946870; 33946870].
Proof.
  cbv zeta. split; [split; [reflexivity|]; repeat constructor; cbn; lia|]. split; [repeat constructor; cbn; lia|].
  split; vm_compute; reflexivity.
Qed.

Example C172_quiet :
  let cs := [AddTo 0 1; SubFrom 0 2; AddTo 0 0] in
  let bufs := [[200; 9]; [100; 0]; [250; 1]] in
  buffers 8 2 3 bufs /\ Forall (legal 8 2 3) cs /\ Forall sums cs /\ Forall products cs /\ fits (2 ^ Z.of_nat (8 * 2)) cs (map (val 8) bufs) /\
  run_bufs 8 cs bufs = Ok ([[100; 16]; [100; 0]; [250; 1]], [false; false; false]).
Proof.
  cbv zeta. split; [split; [reflexivity|]; repeat constructor; cbn; lia|]. split; [repeat constructor; cbn; lia|].
  split; [repeat constructor|]. split; [repeat constructor|]. split; [cbn; repeat constructor; lia|]. vm_compute. reflexivity.
Qed.
