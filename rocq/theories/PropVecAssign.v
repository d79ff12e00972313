(** C147: what an assigning operator of a vector leaves behind when it panics. *)
From Coq Require Import ZArith List Bool Arith Lia.
From Verif Require Import Base BitSliceModel StaticIterModel VectorModel CompoundIntModel VecAssignModel.
Import ListNotations.

(** Either the operator of every component returned and all results are stored, or there is a first
    component whose operator panicked: the components before it hold their results, it holds what its
    own operator left, and those after it are as before. *)
Theorem C147_vectors : forall A B (op : A -> B -> A * bool) a b, length a = length b ->
  match vec_assign_st op a b with
  | (a', true) => length a' = length a /\
      forall i x y, nth_error a i = Some x -> nth_error b i = Some y -> exists x', op x y = (x', true) /\ nth_error a' i = Some x'
  | (a', false) => length a' = length a /\
      exists k, k < length a /\
        (forall i x y, i < k -> nth_error a i = Some x -> nth_error b i = Some y -> exists x', op x y = (x', true) /\ nth_error a' i = Some x') /\
        (forall x y, nth_error a k = Some x -> nth_error b k = Some y -> exists x', op x y = (x', false) /\ nth_error a' k = Some x') /\
        (forall i, k < i -> nth_error a' i = nth_error a i)
  end.
Proof.
  intros A B op a. induction a as [|x a IH]; intros [|y b] L; try discriminate; cbn [vec_assign_st].
  - split; [reflexivity|]. intros [|i] x y H; discriminate.
  - specialize (IH b ltac:(now injection L)). destruct (op x y) as [x' [|]] eqn:E.
    + destruct (vec_assign_st op a b) as [r [|]].
      * destruct IH as [Lr IH]. split; [cbn; lia|]. intros [|i] x0 y0 H1 H2; cbn in H1, H2.
        -- injection H1 as <-. injection H2 as <-. exists x'. auto.
        -- cbn. eauto.
      * destruct IH as (Lr & k & K & P & Q & R). split; [cbn; lia|]. exists (S k). split; [cbn; lia|]. split; [|split].
        -- intros [|i] x0 y0 Hi H1 H2; cbn in H1, H2.
           ++ injection H1 as <-. injection H2 as <-. exists x'. auto.
           ++ cbn. apply (P i); auto. lia.
        -- cbn. exact Q.
        -- intros [|i] Hi; [lia|]. cbn. apply R. lia.
    + split; [reflexivity|]. exists 0. split; [cbn; lia|]. split; [intros; lia|]. split.
      * cbn. intros x0 y0 H1 H2. injection H1 as <-. injection H2 as <-. exists x'. auto.
      * intros [|i] Hi; [lia|reflexivity].
Qed.
Print Assumptions C147_vectors.

(** With a scalar on the right the same holds, with that scalar in every component. *)
Theorem C147_scalars : forall A B (op : A -> B -> A * bool) a s,
  vec_assign_scalar_st op a s = vec_assign_st op a (repeat s (length a)).
Proof.
  intros A B op a s. induction a as [|x a IH]; [reflexivity|]. cbn [vec_assign_scalar_st length repeat vec_assign_st].
  rewrite IH. reflexivity.
Qed.
Print Assumptions C147_scalars.

(** The operator panics exactly when C85 says so, and otherwise leaves the vector described there. *)
Theorem C147_same_outcome : forall A B (op : A -> B -> out A) a b s,
  (forall x y, op x y <> UB) ->
  vec_assign op a b = match vec_assign_st (store_after op) a b with (a', true) => Ret a' | (_, false) => Pan end /\
  vec_assign_scalar op a s = match vec_assign_scalar_st (store_after op) a s with (a', true) => Ret a' | (_, false) => Pan end.
Proof.
  intros A B op a b s U. split.
  - revert b. unfold vec_assign. induction a as [|x a IH]; intros [|y b]; try reflexivity. cbn [each_pair vec_assign_st].
    unfold store_after at 1. specialize (U x y). destruct (op x y) as [z| |]; cbn [obind]; try congruence.
    rewrite IH. destruct (vec_assign_st (store_after op) a b) as [r [|]]; reflexivity.
  - unfold vec_assign_scalar. induction a as [|x a IH]; [reflexivity|]. cbn [array_map vec_assign_scalar_st].
    unfold store_after at 1. specialize (U x s). destruct (op x s) as [z| |]; cbn [obind]; try congruence.
    rewrite IH. destruct (vec_assign_scalar_st (store_after op) a s) as [r [|]]; reflexivity.
Qed.
Print Assumptions C147_same_outcome.

(** Components that compute before they store keep their own value when they panic: the vector is then
    a prefix of the results followed by the old components. *)
Theorem C147_stored : forall A B (op : A -> B -> out A) a b a', length a = length b ->
  vec_assign_st (store_after op) a b = (a', false) ->
  exists k done, k < length a /\ a' = done ++ skipn k a /\ length done = k /\
    (forall i x y z, nth_error a i = Some x -> nth_error b i = Some y -> nth_error done i = Some z -> op x y = Ret z) /\
    (forall x y z, nth_error a k = Some x -> nth_error b k = Some y -> op x y <> Ret z).
Proof.
  intros A B op a. induction a as [|x a IH]; intros [|y b] a' L; try discriminate. cbn [vec_assign_st].
  unfold store_after at 1. destruct (op x y) as [z| |] eqn:E; intros H.
  - destruct (vec_assign_st (store_after op) a b) as [r ok] eqn:F. injection H as <- ->.
    destruct (IH b r ltac:(now injection L) F) as (k & d & K & -> & D & P & Q).
    exists (S k), (z :: d). split; [cbn; lia|]. split; [reflexivity|]. split; [cbn; lia|]. split.
    + intros [|i] x0 y0 z0 H1 H2 H3; cbn in H1, H2, H3; [congruence|eauto].
    + cbn. exact Q.
  - injection H as <-. exists 0, []. split; [cbn; lia|]. split; [reflexivity|]. split; [reflexivity|]. split.
    + intros [|i] x0 y0 z0 H1 H2 H3; discriminate.
    + cbn. intros x0 y0 z0 H1 H2. congruence.
  - injection H as <-. exists 0, []. split; [cbn; lia|]. split; [reflexivity|]. split; [reflexivity|]. split.
    + intros [|i] x0 y0 z0 H1 H2 H3; discriminate.
    + cbn. intros x0 y0 z0 H1 H2. congruence.
Qed.
Print Assumptions C147_stored.

(** [Vector([100i8, 100, 1, 2]) += Vector([1, 100, 1, 1])] with overflow checks stops at the second component;
    a vector of such vectors stops inside its first one. *)
Example C147_demo :
  let add := store_after (int_add true {| ibits := 8; isigned := true |}) in
  vec_assign_st add [100; 100; 1; 2]%Z [1; 100; 1; 1]%Z = ([101; 100; 1; 2]%Z, false) /\
  vec_assign_st (vec_assign_st add) [[100; 100]; [1; 2]]%Z [[1; 100]; [1; 1]]%Z = ([[101; 100]; [1; 2]]%Z, false) /\
  vec_assign_scalar_st add [1; 2; 100; 3]%Z 28%Z = ([29; 30; 100; 3]%Z, false).
Proof. vm_compute. auto. Qed.
