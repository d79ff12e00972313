(** Property C152: arithmetic expressions over byte-array integers. *)
From Coq Require Import ZArith List Bool Lia.
From Verif Require Import Base Words Spec Arith ElementModel BitSliceModel UModel IModel PropU IProofs PropI PropI2 UExprModel.
Import ListNotations.
Local Open Scope Z_scope.

(** ** Specification *)

(** The integer an expression stands for, when [!x] stands for [m - x] and byte strings for [v]. *)
Fixpoint integer (v : list Z -> Z) (m : Z) (args : list (list Z)) (e : uexpr) : Z :=
  match e with
  | Arg i => v (nth i args [])
  | Const c => v c
  | Plus e f => integer v m args e + integer v m args f
  | Diff e f => integer v m args e - integer v m args f
  | Times e f => integer v m args e * integer v m args f
  | Compl e => m - integer v m args e
  | Negate e => - integer v m args e
  end.

(** All arguments exist and all arguments and constants are arrays of [n] bytes. *)
Fixpoint typed (n : nat) (args : list (list Z)) (e : uexpr) : Prop :=
  match e with
  | Arg i => exists a, nth_error args i = Some a /\ wf 8 a /\ length a = n
  | Const c => wf 8 c /\ length c = n
  | Plus e f | Diff e f | Times e f => typed n args e /\ typed n args f
  | Compl e | Negate e => typed n args e
  end.
Fixpoint mentions (p : uexpr -> bool) (e : uexpr) : bool :=
  p e || match e with
         | Arg _ | Const _ => false
         | Plus e f | Diff e f | Times e f => mentions p e || mentions p f
         | Compl e | Negate e => mentions p e
         end.
Definition is_negate (e : uexpr) := match e with Negate _ => true | _ => false end.
Definition is_times (e : uexpr) := match e with Times _ _ => true | _ => false end.

(** The integers of all subexpressions satisfy [ok]. *)
Fixpoint throughout (ok : Z -> Prop) (v : list Z -> Z) (m : Z) (args : list (list Z)) (e : uexpr) : Prop :=
  ok (integer v m args e) /\
  match e with
  | Arg _ | Const _ => True
  | Plus e f | Diff e f | Times e f => throughout ok v m args e /\ throughout ok v m args f
  | Compl e | Negate e => throughout ok v m args e
  end.

(** ** Proofs *)

Lemma cap8_pos n : 0 < cap 8 n.
Proof. apply Z.pow_pos_nonneg; lia. Qed.

Section U.
Variables (n : nat) (args : list (list Z)).
Notation int := (integer (val 8) (cap 8 n - 1) args).

Lemma typed_arg i : typed n args (Arg i) -> wf 8 (nth i args []) /\ length (nth i args []) = n.
Proof. intros (a & E & W & L). rewrite (nth_error_nth args i [] E). auto. Qed.

Lemma ueval_congruent dbg : forall e, typed n args e -> forall c, ueval dbg args e = Ok c ->
  wf 8 c /\ length c = n /\ val 8 c = int e mod cap 8 n.
Proof.
  pose proof (cap8_pos n) as Cp.
  assert (forall c, wf 8 c -> length c = n -> val 8 c = val 8 c mod cap 8 n) as Small.
  { intros c W L. pose proof (val_bound 8 c W). rewrite L in *. rewrite Z.mod_small; lia. }
  induction e as [i|b|e IHe f IHf|e IHe f IHf|e IHe f IHf|e IH|e IH]; cbn [typed ueval integer]; intros T c E.
  - destruct (typed_arg i T) as [W L]. injection E as <-. auto.
  - destruct T as [W L]. injection E as <-. auto.
  - destruct T as [T1 T2]. destruct (ueval dbg args e) as [a| |]; try discriminate. destruct (ueval dbg args f) as [b| |]; try discriminate.
    cbn [bind] in E. destruct (IHe T1 a eq_refl) as (Wa & La & Va). destruct (IHf T2 b eq_refl) as (Wb & Lb & Vb).
    destruct (C26_add dbg a b Wa Wb ltac:(congruence)) as (H1 & H2 & _). rewrite La in *.
    rewrite Z.add_mod, <- Va, <- Vb by lia.
    destruct (Z.lt_ge_cases (val 8 a + val 8 b) (cap 8 n)) as [L|L].
    + destruct (H1 L) as (c' & E' & _ & _ & W & L' & V). assert (c' = c) as <- by congruence. split; auto. split; auto. rewrite <- V. auto.
    + destruct (H2 L) as (Pn & _ & _ & c' & E' & W & L' & V). destruct dbg; [congruence|]. assert (c' = c) as <- by congruence. auto.
  - destruct T as [T1 T2]. destruct (ueval dbg args e) as [a| |]; try discriminate. destruct (ueval dbg args f) as [b| |]; try discriminate.
    cbn [bind] in E. destruct (IHe T1 a eq_refl) as (Wa & La & Va). destruct (IHf T2 b eq_refl) as (Wb & Lb & Vb).
    destruct (C26_sub dbg a b Wa Wb ltac:(congruence)) as (H1 & H2 & _). rewrite La in *.
    rewrite Zminus_mod, <- Va, <- Vb by lia.
    destruct (Z.lt_ge_cases (val 8 a - val 8 b) 0) as [L|L].
    + destruct (H2 L) as (Pn & _ & _ & c' & E' & W & L' & V). destruct dbg; [congruence|]. assert (c' = c) as <- by congruence. auto.
    + destruct (H1 L) as (c' & E' & _ & _ & W & L' & V). assert (c' = c) as <- by congruence. split; auto. split; auto. rewrite <- V. auto.
  - destruct T as [T1 T2]. destruct (ueval dbg args e) as [a| |]; try discriminate. destruct (ueval dbg args f) as [b| |]; try discriminate.
    cbn [bind] in E. destruct (IHe T1 a eq_refl) as (Wa & La & Va). destruct (IHf T2 b eq_refl) as (Wb & Lb & Vb).
    rewrite Z.mul_mod, <- Va, <- Vb by lia.
    destruct (C27_mul a b Wa Wb ltac:(congruence)) as ((c' & E' & W & L' & V) & _). rewrite La in *.
    enough (c' = c) as <- by auto. destruct dbg; [|congruence]. unfold u_mul, elem_mul_checked, elem_mul_wrapping in E, E'.
    destruct (elem_mul_overflowing 8 a b) as [o [|]]; cbn in *; congruence.
  - destruct (ueval dbg args e) as [a| |]; try discriminate. cbn [bind] in E. injection E as <-.
    destruct (IH T a eq_refl) as (Wa & La & Va). destruct (C32_bitops a a 0 Wa Wa eq_refl) as (_ & _ & _ & _ & _ & _ & _ & _ & _ & W & L & V & _).
    rewrite La in *. split; auto. split; auto. rewrite V. rewrite Zminus_mod, <- Va.
    rewrite (Z.mod_small (cap 8 n - 1)) by lia. pose proof (val_bound 8 a Wa). rewrite La in *. rewrite Z.mod_small; lia.
  - discriminate.
Qed.

Lemma ueval_total : forall e, typed n args e -> mentions is_negate e = false -> exists c, ueval false args e = Ok c.
Proof.
  assert (forall e, typed n args e -> forall c, ueval false args e = Ok c -> wf 8 c /\ length c = n) as G.
  { intros e T c E. destruct (ueval_congruent false e T c E) as (W & L & _). auto. }
  induction e as [i|b|e IHe f IHf|e IHe f IHf|e IHe f IHf|e IH|e IH]; cbn [typed ueval mentions is_negate orb]; intros T M; eauto;
    try (apply orb_false_iff in M; destruct T as [T1 T2], M as [M1 M2], (IHe T1 M1) as [a E1], (IHf T2 M2) as [b E2]; rewrite E1, E2;
         destruct (G _ T1 _ E1), (G _ T2 _ E2); cbn [bind]).
  - unfold u_add, elem_add_wrapping. cbn. eauto.
  - cbn. unfold u_sub. eauto.
  - unfold u_mul. eauto.
  - destruct (IH T M) as [a E]. rewrite E. cbn. eauto.
  - discriminate.
Qed.

Lemma ueval_in_range dbg : forall e, typed n args e -> mentions is_negate e = false ->
  throughout (fun z => 0 <= z < cap 8 n) (val 8) (cap 8 n - 1) args e -> exists c, ueval dbg args e = Ok c /\ val 8 c = int e.
Proof.
  assert (forall e, typed n args e -> forall c, ueval dbg args e = Ok c -> wf 8 c /\ length c = n) as G.
  { intros e T c E. destruct (ueval_congruent dbg e T c E) as (W & L & _). auto. }
  induction e as [i|b|e IHe f IHf|e IHe f IHf|e IHe f IHf|e IH|e IH]; cbn [typed ueval mentions is_negate orb throughout];
    intros T M H; eauto;
    try (apply orb_false_iff in M; destruct H as (H & H1 & H2), T as [T1 T2], M as [M1 M2], (IHe T1 M1 H1) as (a & E1 & V1),
      (IHf T2 M2 H2) as (b & E2 & V2); rewrite E1, E2;
      destruct (G _ T1 _ E1) as [Wa La], (G _ T2 _ E2) as [Wb Lb]; cbn [bind integer] in *; rewrite <- V1, <- V2 in H |- *).
  - destruct (C26_add dbg a b Wa Wb ltac:(congruence)) as (K & _). rewrite La in K. destruct K as (c & E & _ & _ & _ & _ & V); [lia|].
    exists c. auto.
  - destruct (C26_sub dbg a b Wa Wb ltac:(congruence)) as (K & _). destruct K as (c & E & _ & _ & _ & _ & V); [lia|]. exists c. auto.
  - destruct (C27_mul a b Wa Wb ltac:(congruence)) as (_ & K). rewrite La in K. destruct K as (c & E & _ & _ & _ & _ & V); [lia|].
    exists c. auto.
  - destruct H as [_ H]. destruct (IH T M H) as (a & E & V). rewrite E. cbn [bind integer]. destruct (G _ T _ E) as [Wa La].
    exists (u_not a). split; auto. destruct (C32_bitops a a 0 Wa Wa eq_refl) as (_ & _ & _ & _ & _ & _ & _ & _ & _ & _ & _ & K & _).
    rewrite K, La, V. reflexivity.
  - discriminate.
Qed.

Lemma ueval_checked : forall e, typed n args e -> mentions is_times e = false -> forall c, ueval true args e = Ok c ->
  throughout (fun z => 0 <= z < cap 8 n) (val 8) (cap 8 n - 1) args e.
Proof.
  assert (forall c, wf 8 c -> length c = n -> 0 <= val 8 c < cap 8 n) as B.
  { intros c W L. pose proof (val_bound 8 c W). rewrite L in *. auto. }
  assert (forall e, typed n args e -> mentions is_times e = false -> forall c, ueval true args e = Ok c ->
    throughout (fun z => 0 <= z < cap 8 n) (val 8) (cap 8 n - 1) args e /\ val 8 c = int e) as G.
  2:{ intros e T M c E. apply (G e T M c E). }
  induction e as [i|b|e IHe f IHf|e IHe f IHf|e IHe f IHf|e IH|e IH]; intros T M c E;
    pose proof (ueval_congruent true _ T c E) as (W & L & _); pose proof (B c W L) as Bc;
    cbn [typed mentions is_times orb throughout ueval integer] in *.
  - injection E as <-. auto.
  - injection E as <-. auto.
  - apply orb_false_iff in M. destruct M as [M1 M2], T as [T1 T2]. 
    destruct (ueval true args e) as [a| |] eqn:E1; try discriminate. destruct (ueval true args f) as [b| |] eqn:E2; try discriminate.
    cbn [bind] in E. destruct (IHe T1 M1 a eq_refl) as [H1 V1]. destruct (IHf T2 M2 b eq_refl) as [H2 V2].
    destruct (ueval_congruent true _ T1 a E1) as (Wa & La & _). destruct (ueval_congruent true _ T2 b E2) as (Wb & Lb & _).
    destruct (C26_add true a b Wa Wb ltac:(congruence)) as (K1 & K2 & _). rewrite La in *. rewrite <- V1, <- V2.
    destruct (Z.lt_ge_cases (val 8 a + val 8 b) (cap 8 n)) as [D|D]; [|destruct (K2 D) as (Q & _); congruence].
    destruct (K1 D) as (c' & E' & _ & _ & _ & _ & V'). assert (c' = c) as -> by congruence. rewrite <- V'. auto.
  - apply orb_false_iff in M. destruct M as [M1 M2], T as [T1 T2]. 
    destruct (ueval true args e) as [a| |] eqn:E1; try discriminate. destruct (ueval true args f) as [b| |] eqn:E2; try discriminate.
    cbn [bind] in E. destruct (IHe T1 M1 a eq_refl) as [H1 V1]. destruct (IHf T2 M2 b eq_refl) as [H2 V2].
    destruct (ueval_congruent true _ T1 a E1) as (Wa & La & _). destruct (ueval_congruent true _ T2 b E2) as (Wb & Lb & _).
    destruct (C26_sub true a b Wa Wb ltac:(congruence)) as (K1 & K2 & _). rewrite La in *. rewrite <- V1, <- V2.
    destruct (Z.lt_ge_cases (val 8 a - val 8 b) 0) as [D|D]; [destruct (K2 D) as (Q & _); congruence|].
    destruct (K1 D) as (c' & E' & _ & _ & _ & _ & V'). assert (c' = c) as -> by congruence. rewrite <- V'. auto.
  - discriminate.
  - destruct (ueval true args e) as [a| |] eqn:E1; try discriminate. cbn [bind] in E. injection E as <-.
    destruct (IH T M a eq_refl) as [H1 V1]. destruct (ueval_congruent true _ T a E1) as (Wa & La & _).
    destruct (C32_bitops a a 0 Wa Wa eq_refl) as (_ & _ & _ & _ & _ & _ & _ & _ & _ & _ & _ & K & _). rewrite La in K.
    rewrite <- V1, <- K. auto.
  - discriminate.
Qed.
End U.

(** Without overflow checks, every expression of [+ - * !] is computed modulo [2^(8N)] and never panics. *)
Theorem C152_wrapping : forall n args e, typed n args e -> mentions is_negate e = false ->
  exists c, ueval false args e = Ok c /\ wf 8 c /\ length c = n /\ val 8 c = integer (val 8) (cap 8 n - 1) args e mod cap 8 n.
Proof.
  intros n args e T M. destruct (ueval_total n args e T M) as [c E]. exists c. split; auto. apply (ueval_congruent n args false e T c E).
Qed.
Print Assumptions C152_wrapping.

(** In both builds: exact if no intermediate result leaves the range; with checks, what is returned is right modulo [2^(8N)]. *)
Theorem C152_exact : forall dbg n args e, typed n args e -> mentions is_negate e = false ->
  (throughout (fun z => 0 <= z < cap 8 n) (val 8) (cap 8 n - 1) args e ->
     exists c, ueval dbg args e = Ok c /\ val 8 c = integer (val 8) (cap 8 n - 1) args e) /\
  (forall c, ueval dbg args e = Ok c -> val 8 c = integer (val 8) (cap 8 n - 1) args e mod cap 8 n).
Proof.
  intros dbg n args e T M. split; [apply ueval_in_range; auto|]. intros c E. apply (ueval_congruent n args dbg e T c E).
Qed.
Print Assumptions C152_exact.

(** Without products, with checks: returned exactly if no intermediate result leaves the range, and a panic otherwise. *)
Theorem C152_checked : forall n args e, typed n args e -> mentions is_negate e = false -> mentions is_times e = false ->
  let inside := throughout (fun z => 0 <= z < cap 8 n) (val 8) (cap 8 n - 1) args e in
  (inside <-> exists c, ueval true args e = Ok c) /\ (~ inside <-> ueval true args e = Panic).
Proof.
  intros n args e T M M' inside.
  assert (inside <-> exists c, ueval true args e = Ok c) as H.
  { split; [intros I; destruct (ueval_in_range n args true e T M I) as (c & E & _); eauto|]. intros [c E].
    exact (ueval_checked n args e T M' c E). }
  split; auto. rewrite H. split.
  - intros Q. assert (forall e, ueval true args e <> Timeout) as NT.
    { clear. induction e as [i|b|e IHe f IHf|e IHe f IHf|e IHe f IHf|e IH|e IH]; cbn [ueval]; try discriminate;
        try (destruct (ueval true args e) as [a| |]; try discriminate; try contradiction;
             destruct (ueval true args f) as [b| |]; try discriminate; try contradiction; cbn [bind]).
      - unfold u_add, unwrap. destruct (u_checked_add a b); cbn; discriminate.
      - unfold u_sub, unwrap. destruct (u_checked_sub a b); cbn; discriminate.
      - unfold u_mul, unwrap. destruct (elem_mul_checked 8 a b); cbn; discriminate. }
    specialize (NT e). destruct (ueval true args e); auto; [exfalso; eauto|contradiction].
  - intros E [c E']. congruence.
Qed.
Print Assumptions C152_checked.

(** [I<N>]: [+ - * !] and unary minus, in both builds; exact whenever the final result fits, whatever the intermediate ones. *)
Theorem C152_signed : forall n args e, (0 < n)%nat -> typed n args e ->
  wf 8 (ieval args e) /\ length (ieval args e) = n /\
  sval (ieval args e) = swrap n (integer sval (-1) args e) /\
  (- cap 8 n <= 2 * integer sval (-1) args e < cap 8 n -> sval (ieval args e) = integer sval (-1) args e).
Proof.
  intros n args e Hn T. pose proof (cap8_pos n) as Cp.
  assert (forall c, wf 8 c -> length c = n -> sval c = swrap n (sval c)) as Small.
  { intros c W L. symmetry. apply swrap_small. rewrite <- L. apply sval_range; auto. lia. }
  assert (forall x, swrap n x mod cap 8 n = x mod cap 8 n) as SW.
  { intros x. unfold swrap. destruct (2 * (x mod cap 8 n) <? cap 8 n).
    - apply Z.mod_mod. lia.
    - replace (x mod cap 8 n - cap 8 n) with (x mod cap 8 n + -1 * cap 8 n) by lia. rewrite Z.mod_add by lia. apply Z.mod_mod. lia. }
  assert (wf 8 (ieval args e) /\ length (ieval args e) = n /\ sval (ieval args e) = swrap n (integer sval (-1) args e)) as G.
  { induction e as [i|b|e IHe f IHf|e IHe f IHf|e IHe f IHf|e IH|e IH]; cbn [typed ieval integer] in *.
    - destruct (typed_arg n args i T) as [W L]. auto.
    - destruct T. auto.
    - destruct T as [T1 T2], (IHe T1) as (Wa & La & Va), (IHf T2) as (Wb & Lb & Vb).
      destruct (C36_ring _ _ Wa Wb ltac:(congruence) ltac:(lia)) as (K & _ & _ & _ & I & _). rewrite La in *.
      destruct (I (i_add (ieval args e) (ieval args f))) as [W L]; [cbn; auto|]. split; auto. split; auto. rewrite K, Va, Vb.
      apply swrap_congr. rewrite Zplus_mod, !SW, <- Zplus_mod. reflexivity.
    - destruct T as [T1 T2], (IHe T1) as (Wa & La & Va), (IHf T2) as (Wb & Lb & Vb).
      destruct (C36_ring _ _ Wa Wb ltac:(congruence) ltac:(lia)) as (_ & K & _ & _ & I & _). rewrite La in *.
      destruct (I (i_sub (ieval args e) (ieval args f))) as [W L]; [cbn; auto|]. split; auto. split; auto. rewrite K, Va, Vb.
      apply swrap_congr. rewrite Zminus_mod, !SW, <- Zminus_mod. reflexivity.
    - destruct T as [T1 T2], (IHe T1) as (Wa & La & Va), (IHf T2) as (Wb & Lb & Vb).
      destruct (C36_ring _ _ Wa Wb ltac:(congruence) ltac:(lia)) as (_ & _ & K & _ & I & _). rewrite La in *.
      destruct (I (i_mul (ieval args e) (ieval args f))) as [W L]; [cbn; auto|]. split; auto. split; auto. rewrite K, Va, Vb.
      apply swrap_congr. rewrite Zmult_mod, !SW, <- Zmult_mod. reflexivity.
    - destruct (IH T) as (Wa & La & Va).
      destruct (C32_bitops _ _ 0 Wa Wa eq_refl) as (_ & _ & _ & _ & _ & _ & _ & _ & _ & W & L & _).
      destruct (C115_bitops _ _ Wa Wa eq_refl ltac:(lia)) as (_ & _ & _ & K). rewrite La in *. split; auto. split; auto.
      rewrite Small, K, Va by auto. apply swrap_congr.
      replace (- swrap n (integer sval (-1) args e) - 1) with (- 1 - swrap n (integer sval (-1) args e)) by lia.
      rewrite Zminus_mod, SW, <- Zminus_mod. reflexivity.
    - destruct (IH T) as (Wa & La & Va).
      destruct (C36_ring _ _ Wa Wa eq_refl ltac:(lia)) as (_ & _ & _ & K & I & _). rewrite La in *.
      destruct (I (i_neg (ieval args e))) as [W L]; [cbn; auto|]. split; auto. split; auto. rewrite K, Va.
      apply swrap_congr. rewrite <- (Z.sub_0_l (swrap n _)), <- (Z.sub_0_l (integer _ _ _ _)), Zminus_mod, SW, <- Zminus_mod. reflexivity. }
  destruct G as (W & L & V). repeat (split; auto). intros R. rewrite V. apply swrap_small. auto.
Qed.
Print Assumptions C152_signed.

(** [300 - 200 * !65534] and the like on two bytes: [!65534] is 1. The second underflows on the way: a panic with checks,
    right modulo [2^16] without; on [I<2>] [(30000 + 30000) - 30001] is right although the sum overflows. *)
Definition demo_args : list (list Z) := [[44; 1]; [200; 0]; [254; 255]].
Definition demo_e : uexpr := Diff (Arg 0) (Times (Arg 1) (Compl (Arg 2))).
Definition demo_f : uexpr := Plus (Diff (Arg 1) (Arg 0)) (Arg 0).
Definition demo_g : uexpr := Diff (Plus (Const [48; 117]) (Const [48; 117])) (Const [49; 117]).
Example C152_demo :
  typed 2 demo_args demo_e /\ mentions is_negate demo_e = false /\
  throughout (fun z => 0 <= z < cap 8 2) (val 8) (cap 8 2 - 1) demo_args demo_e /\
  ueval true demo_args demo_e = Ok [100; 0] /\ integer (val 8) (cap 8 2 - 1) demo_args demo_e = 100 /\
  typed 2 demo_args demo_f /\ ueval true demo_args demo_f = Panic /\ ueval false demo_args demo_f = Ok [200; 0] /\
  typed 2 [] demo_g /\ integer sval (-1) [] demo_g = 29999 /\ ieval [] demo_g = [47; 117] /\ sval [47; 117] = 29999.
Proof.
  assert (forall i a, nth_error demo_args i = Some a -> exists a', nth_error demo_args i = Some a' /\ wf 8 a' /\ length a' = 2%nat) as T.
  { intros i a E. exists a. split; auto. assert (Forall (fun c => wf 8 c /\ length c = 2%nat) demo_args) as F.
    { repeat constructor; cbn; lia. }
    apply (proj1 (Forall_forall _ _) F). eapply nth_error_In; eauto. }
  repeat split; try reflexivity; try (vm_compute; congruence); first [eapply T; reflexivity | repeat constructor; lia].
Qed.
