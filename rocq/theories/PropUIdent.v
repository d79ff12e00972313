(** Property C149: zero and one of [U<N>] (crates/ints/src/u.rs:538-560) and the tests for them. *)
From Coq Require Import ZArith List Bool Lia ZifyNat.
From Verif Require Import Base Words Spec Arith BitSliceModel BitSliceProofs ElementModel
  BitwiseModel PrimModel PropBits UModel UProofs PropU.
Import ListNotations.
Local Open Scope Z_scope.

(** [zero()] and [one()] have these values, and the tests hold of exactly these values. *)
Theorem C149_tests : forall n a, (0 < n)%nat -> wf 8 a -> length a = n ->
  wf 8 (u_zero n) /\ length (u_zero n) = n /\ val 8 (u_zero n) = 0 /\
  wf 8 (u_one n) /\ length (u_one n) = n /\ val 8 (u_one n) = 1 /\
  (u_is_zero a = true <-> a = u_zero n) /\
  u_is_one a <> Panic /\ (u_is_one a = Ok true <-> a = u_one n) /\
  u_is_zero (u_one n) = false /\ u_is_one (u_zero n) = Ok false.
Proof.
  intros n a Hn Ha L. assert (val 8 (u_zero n) = 0) as Z0 by apply val_zeros. pose proof (val_u_one n Hn) as Z1.
  assert (wf 8 (u_zero n)) as W0 by apply wf_zeros. assert (length (u_zero n) = n) as L0 by apply length_zeros.
  pose proof (wf_u_one n) as W1. pose proof (length_u_one n) as L1.
  do 6 (split; [assumption|]).
  rewrite !u_is_zero_spec, !u_is_one_spec by (auto; lia). rewrite Z0, Z1.
  split. { rewrite Z.eqb_eq. split; [|intros ->; auto]. intros V. apply (val_inj 8); auto; congruence. }
  split; [discriminate|]. split; [|split; reflexivity].
  split; [intros E; injection E as E; apply Z.eqb_eq in E; apply (val_inj 8); auto; congruence|].
  intros ->. rewrite Z1. reflexivity.
Qed.

(** They are the neutral elements, in builds with and without overflow checks, on either side. *)
Theorem C149_neutral : forall dbg n a, (0 < n)%nat -> wf 8 a -> length a = n ->
  u_add dbg a (u_zero n) = Ok a /\ u_add dbg (u_zero n) a = Ok a /\ u_sub dbg a (u_zero n) = Ok a /\
  u_mul dbg a (u_one n) = Ok a /\ u_mul dbg (u_one n) a = Ok a /\
  u_mul dbg a (u_zero n) = Ok (u_zero n) /\ u_mul dbg (u_zero n) a = Ok (u_zero n).
Proof.
  intros dbg n a Hn Ha L. destruct (C149_tests n a Hn Ha L) as (W0 & L0 & Z0 & W1 & L1 & Z1 & _).
  pose proof (val_bound 8 a Ha) as B. assert (0 < cap 8 (length a)) as P by lia.
  assert (forall x y, wf 8 x -> wf 8 y -> length x = n -> length y = n -> val 8 x = val 8 y -> x = y) as Inj.
  { intros x y Hx Hy Lx Ly V. apply (val_inj 8); auto. congruence. }
  assert (forall x y z, wf 8 x -> wf 8 y -> wf 8 z -> length x = n -> length y = n -> length z = n ->
    val 8 x * val 8 y = val 8 z -> u_mul dbg x y = Ok z) as Mul.
  { intros x y z Hx Hy Hz Lx Ly Lz V. destruct (C27_mul x y Hx Hy ltac:(congruence)) as [_ M].
    pose proof (val_bound 8 z Hz) as Bz. destruct M as (c & E & _ & _ & Wc & Lc & Vc); [rewrite V, Lx, <- Lz; lia|].
    rewrite E. f_equal. apply Inj; auto; congruence. }
  assert (forall x y z, wf 8 x -> wf 8 y -> wf 8 z -> length x = n -> length y = n -> length z = n ->
    val 8 x + val 8 y = val 8 z -> u_add dbg x y = Ok z) as Add.
  { intros x y z Hx Hy Hz Lx Ly Lz V. destruct (C26_add dbg x y Hx Hy ltac:(congruence)) as [M _].
    pose proof (val_bound 8 z Hz) as Bz. destruct M as (c & E & _ & _ & Wc & Lc & Vc); [rewrite V, Lx, <- Lz; lia|].
    rewrite E. f_equal. apply Inj; auto; congruence. }
  split; [apply Add; auto; lia|]. split; [apply Add; auto; lia|]. split.
  { destruct (C26_sub dbg a (u_zero n) Ha W0 ltac:(congruence)) as [M _].
    destruct M as (c & E & _ & _ & Wc & Lc & Vc); [lia|]. rewrite E. f_equal. apply Inj; auto; try congruence. lia. }
  repeat split; apply Mul; auto; rewrite ?Z0, ?Z1; lia.
Qed.

(** Without bytes there is one value, [zero()] and [one()] are that value, and asking whether it is one panics. *)
Theorem C149_no_bytes : u_one 0 = u_zero 0 /\ u_is_zero (u_zero 0) = true /\ u_is_one (u_zero 0) = Panic.
Proof. repeat split. Qed.

Example C149_demo : wf 8 [200; 3] /\ u_is_one [200; 3] = Ok false /\ u_is_one [1; 0] = Ok true /\ u_is_one [1; 1] = Ok false /\
  u_mul true [200; 3] (u_one 2) = Ok [200; 3].
Proof. split; [wf_tac|]. repeat split; reflexivity. Qed.

Print Assumptions C149_tests.
Print Assumptions C149_neutral.
Print Assumptions C149_no_bytes.
