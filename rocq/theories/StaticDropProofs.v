(** Lemmas about the elements owned by static iterators. *)
From Coq Require Import List Bool Arith Lia.
From Verif Require Import Base StaticIterModel StaticIterSpec StaticIterProofs VectorModel StaticDropModel StaticDropSpec.
Import ListNotations.

Fixpoint idx_st_all {A} (l : list (adapter A)) (i : nat) : list (adapter A) * out (list A) :=
  match l with
  | [] => ([], Ret [])
  | a :: l' =>
    let '(a', x) := idx_st a i in
    match x with
    | Ret x => let '(l'', xs) := idx_st_all l' i in
      (a' :: l'', match xs with Ret xs => Ret (x :: xs) | Pan => Pan | UB => UB end)
    | Pan => (a' :: l', Pan)
    | UB => (a' :: l', UB)
    end
  end.

Lemma idx_st_zipall A (arrs : list (adapter A)) i :
  idx_st (AZipAll arrs) i = let '(arrs', xs) := idx_st_all arrs i in (AZipAll arrs', xs).
Proof.
  cbn [idx_st].
  set (go := fix go l := match l with [] => _ | _ => _ end).
  assert (E : forall l, go l = idx_st_all l i).
  { induction l as [|a l IH]; [reflexivity|]. cbn [idx_st_all]. rewrite <- IH. reflexivity. }
  rewrite E. reflexivity.
Qed.

(** Forgetting the state after a panic gives back [idx]. *)
Definition plain {A R} (p : A * out R) : out (A * R) :=
  match p with (a, Ret x) => Ret (a, x) | (_, Pan) => Pan | (_, UB) => UB end.

Lemma idx_plain A (a : adapter A) i : idx a i = plain (idx_st a i).
Proof.
  revert A a. apply (adapter_ind2 (fun A a => idx a i = plain (idx_st a i))); intros.
  - cbn. destruct (nth_error cells i) as [[v|]|]; reflexivity.
  - cbn. destruct (nth_error inner i); reflexivity.
  - reflexivity.
  - cbn [idx idx_st]. rewrite H. destruct (idx_st a i) as [a' [x| |]]; cbn; auto. destruct (f c x) as [[c' y]| |]; reflexivity.
  - cbn [idx idx_st]. rewrite H. destruct (idx_st a i) as [a' [x| |]]; cbn; auto. rewrite H0.
    destruct (idx_st b i) as [b' [y| |]]; reflexivity.
  - cbn [idx idx_st]. rewrite H. destruct (idx_st a i) as [a' [x| |]]; reflexivity.
  - rewrite idx_zipall, idx_st_zipall.
    assert (idx_all arrs i = plain (idx_st_all arrs i)) as ->.
    { induction H as [|a l Ha _ IH]; [reflexivity|]. cbn [idx_all idx_st_all]. rewrite Ha.
      destruct (idx_st a i) as [a' [x| |]]; cbn; auto. rewrite IH. destruct (idx_st_all l i) as [l' [xs| |]]; reflexivity. }
    destruct (idx_st_all arrs i) as [l' [xs| |]]; reflexivity.
Qed.

(** ** One access *)

Definition clear (i : nat) (s : source) : source := existT _ (projT1 s) (upd (projT2 s) i None).

(** The first [m] sources were read, the others not. *)
Definition moved (i m : nat) (ss ss' : list source) : Prop :=
  m <= length ss /\ ss' = map (clear i) (firstn m ss) ++ skipn m ss.

Lemma moved_0 i ss : moved i 0 ss ss.
Proof. split; [lia|reflexivity]. Qed.
Lemma moved_l i m s s' t : moved i m s s' -> moved i m (s ++ t) (s' ++ t).
Proof.
  intros [L ->]. split; [rewrite app_length; lia|]. rewrite firstn_app, skipn_app.
  replace (m - length s) with 0 by lia. cbn. rewrite app_nil_r, app_assoc. reflexivity.
Qed.
Lemma moved_r i m s t t' : moved i m t t' -> moved i (length s + m) (s ++ t) (map (clear i) s ++ t').
Proof.
  intros [L ->]. split; [rewrite app_length; lia|]. rewrite firstn_app_2, map_app, <- app_assoc. do 2 f_equal.
  rewrite skipn_app, (skipn_all2 s) by lia. replace (length s + m - length s) with m by lia. reflexivity.
Qed.

Definition tracked {A R} (src : A -> list source) (ss : list source) (i : nat) (p : A * out R) : Prop :=
  match snd p with
  | Ret _ => src (fst p) = map (clear i) ss
  | _ => exists m, moved i m ss (src (fst p))
  end.

Lemma idx_tracked A (a : adapter A) i : tracked sources (sources a) i (idx_st a i).
Proof.
  revert A a. apply (adapter_ind2 (fun A a => tracked sources (sources a) i (idx_st a i))); intros; unfold tracked in *.
  - cbn. destruct (nth_error cells i) as [[v|]|]; cbn; eauto using moved_0.
  - cbn. destruct (nth_error inner i); cbn; eauto using moved_0.
  - reflexivity.
  - cbn [idx_st sources]. destruct (idx_st a i) as [a' [x| |]]; cbn [fst snd] in *; cbn [sources]; auto.
    destruct (f c x) as [[c' y]| |]; cbn [fst snd sources]; auto; rewrite H; exists (length (sources a)); split; auto;
      rewrite firstn_all, skipn_all, app_nil_r; auto.
  - cbn [idx_st sources]. destruct (idx_st a i) as [a' [x| |]]; cbn [fst snd] in *; cbn [sources].
    + destruct (idx_st b i) as [b' [y| |]]; cbn [fst snd] in *; cbn [sources].
      * rewrite map_app. congruence.
      * destruct H0 as [m M]. rewrite H. eauto using moved_r.
      * destruct H0 as [m M]. rewrite H. eauto using moved_r.
    + destruct H as [m M]. eauto using moved_l.
    + destruct H as [m M]. eauto using moved_l.
  - cbn [idx_st sources]. destruct (idx_st a i) as [a' [x| |]]; cbn [fst snd] in *; cbn [sources]; auto.
  - rewrite idx_st_zipall.
    assert (tracked (flat_map sources) (flat_map sources arrs) i (idx_st_all arrs i)) as T.
    { induction H as [|a l Ha _ IH]; [reflexivity|]. unfold tracked in *. cbn [idx_st_all flat_map].
      destruct (idx_st a i) as [a' [x| |]]; cbn [fst snd] in *; cbn [flat_map].
      - destruct (idx_st_all l i) as [l' [xs| |]]; cbn [fst snd] in *; cbn [flat_map].
        + rewrite map_app. congruence.
        + destruct IH as [m M]. rewrite Ha. eauto using moved_r.
        + destruct IH as [m M]. rewrite Ha. eauto using moved_r.
      - destruct Ha as [m M]. eauto using moved_l.
      - destruct Ha as [m M]. eauto using moved_l. }
    unfold tracked in T. destruct (idx_st_all arrs i) as [l' [xs| |]]; cbn [fst snd] in *; cbn [sources]; auto.
Qed.

(** ** A whole run *)

Lemma Forall_first {A} (P : A -> Prop) k l : Forall P l -> Forall P (firstn k l).
Proof. intros H. rewrite <- (firstn_skipn k l) in H. apply Forall_app in H. tauto. Qed.

Lemma upd_app {A} (l1 : list A) v x l2 : upd (l1 ++ x :: l2) (length l1) v = l1 ++ v :: l2.
Proof. induction l1 as [|y l1 IH]; cbn; auto. rewrite IH. auto. Qed.

Lemma clear_after n k s : length (projT2 s) = n -> k < n -> clear k (after k s) = after (S k) s.
Proof.
  intros L H. unfold clear, after. cbn [projT1 projT2]. f_equal. destruct s as [T cells]. cbn [projT1 projT2] in *.
  destruct (skipn k cells) as [|c r] eqn:E.
  { assert (length (skipn k cells) = 0) as F by (rewrite E; auto). rewrite skipn_length in F. lia. }
  apply skipn_cons in E. destruct E as [_ E]. rewrite E.
  pose proof (upd_app (repeat (@None T) k) None c r) as U. rewrite repeat_length in U. rewrite U.
  replace (S k) with (k + 1) by lia. rewrite repeat_app, <- app_assoc. reflexivity.
Qed.

Lemma after_0 s : after 0 s = s.
Proof. destruct s. reflexivity. Qed.

Lemma map_clear n k ss : Forall (fun s => length (projT2 s) = n) ss -> k < n ->
  map (clear k) (map (after k) ss) = map (after (S k)) ss.
Proof.
  intros F H. rewrite map_map. apply map_ext_in. intros s I. rewrite Forall_forall in F. apply (clear_after n); auto.
Qed.

Lemma fresh_lengths n A (a : adapter A) : fresh n a -> Forall (fun s => length (projT2 s) = n) (sources a).
Proof.
  revert A a. apply (adapter_ind2 (fun A a => fresh n a -> Forall (fun s => length (projT2 s) = n) (sources a))); intros.
  - cbn in *. destruct H as (l & L & -> & _). constructor; auto. cbn. rewrite map_length. auto.
  - constructor.
  - constructor.
  - cbn in *. tauto.
  - cbn in *. apply Forall_app. tauto.
  - cbn in *. tauto.
  - cbn [sources]. revert H0. induction H as [|a l Ha _ IH]; intros F; cbn [flat_map]; [constructor|].
    cbn in F. apply Forall_app. split; [tauto|]. apply IH. cbn. tauto.
Qed.

Lemma run_plain A S B (f : S -> nat -> A -> out (S + B)) : forall m k a s,
  try_from f a k m s = match run f a k m s with
    | (a', s', Ret None) => Ret (a', inl s')
    | (a', _, Ret (Some b)) => Ret (a', inr b)
    | (_, _, Pan) => Pan
    | (_, _, UB) => UB
    end.
Proof.
  induction m as [|m IH]; intros k a s; [reflexivity|]. cbn [try_from run]. rewrite idx_plain.
  destruct (idx_st a k) as [a' [x| |]]; cbn [plain obind]; auto.
  destruct (f s k x) as [[s'|b]| |]; cbn [obind]; auto.
Qed.

Lemma run_sources A S B (f : S -> nat -> A -> out (S + B)) n ss (I : S -> nat -> Prop) :
  (forall s k x s', k < n -> I s k -> f s k x = Ret (inl s') -> I s' (Datatypes.S k)) ->
  Forall (fun s => length (projT2 s) = n) ss ->
  forall m k a s, k + m = n -> sources a = map (after k) ss -> I s k ->
  let '(a', s', r) := run f a k m s in
  match r with
  | Ret None => sources a' = map (after n) ss /\ I s' n
  | Ret (Some b) => exists j, k <= j < n /\ sources a' = map (after (Datatypes.S j)) ss /\ I s' j
  | _ => exists j i, k <= j < n /\ i <= length ss /\
      sources a' = map (after (Datatypes.S j)) (firstn i ss) ++ map (after j) (skipn i ss) /\ I s' j
  end.
Proof.
  intros HI F. induction m as [|m IH]; intros k a s E HS Hs; cbn [run].
  - replace n with k by lia. auto.
  - assert (k < n) as Hk by lia. pose proof (idx_tracked A a k) as T. destruct (idx_st a k) as [a' r]. unfold tracked in T. cbn [fst snd] in T.
    assert (forall i, i <= length (sources a) ->
      map (clear k) (firstn i (sources a)) ++ skipn i (sources a)
      = map (after (Datatypes.S k)) (firstn i ss) ++ map (after k) (skipn i ss)) as P.
    { intros i _. rewrite HS, firstn_map, skipn_map, (map_clear n) by (auto using Forall_first; lia). reflexivity. }
    destruct r as [x| |].
    + rewrite HS, (map_clear n) in T by (auto; lia).
      destruct (f s k x) as [[s'|b]| |] eqn:Ef.
      * specialize (IH (Datatypes.S k) a' s' ltac:(lia) T (HI _ _ _ _ Hk Hs Ef)).
        destruct (run f a' (Datatypes.S k) m s') as [[a2 s2] [[b|]| |]]; auto.
        -- destruct IH as (j & J & Q). exists j. split; [lia|auto].
        -- destruct IH as (j & i & J & Q). exists j, i. split; [lia|auto].
        -- destruct IH as (j & i & J & Q). exists j, i. split; [lia|auto].
      * exists k. split; [lia|auto].
      * exists k, (length ss). split; [lia|]. rewrite firstn_all, skipn_all, app_nil_r. auto.
      * exists k, (length ss). split; [lia|]. rewrite firstn_all, skipn_all, app_nil_r. auto.
    + destruct T as [i [L T]]. exists k, i. rewrite P in T by auto. rewrite HS, map_length in L. split; [lia|]. auto.
    + destruct T as [i [L T]]. exists k, i. rewrite P in T by auto. rewrite HS, map_length in L. split; [lia|]. auto.
Qed.

Lemma after_all n s : length (projT2 s) = n -> emptied (after n s).
Proof.
  intros <-. unfold emptied, after. cbn [projT2]. rewrite skipn_all, app_nil_r. apply Forall_forall. intros x I.
  apply repeat_spec in I. auto.
Qed.

(** ** Collecting *)

Lemma initialised_filled {T} n (d : list T) : initialised (filled n d) = d.
Proof.
  unfold initialised, filled. rewrite flat_map_app.
  assert (forall k, flat_map (fun o : option T => match o with Some v => [v] | None => [] end) (repeat None k) = []) as -> by (induction k; auto).
  rewrite app_nil_r. induction d as [|x d IH]; cbn; auto. rewrite IH. auto.
Qed.

Lemma idx_st_ret A (a : adapter A) i a' x : idx a i = Ret (a', x) -> idx_st a i = (a', Ret x).
Proof. rewrite idx_plain. destruct (idx_st a i) as [b [y| |]]; cbn; intros E; try discriminate. injection E as -> ->. auto. Qed.

Lemma run_option_somes T n : forall vs rest d (a : adapter (option T)), ready n (length d) a ->
  items n (length d) a (map Some vs ++ rest) -> length d + length vs + length rest = n ->
  exists a', ready n (length (d ++ vs)) a' /\ items n (length (d ++ vs)) a' rest /\
  run (fun s k x => write (option_static (array_static T)) s k x) a (length d) (length vs + length rest) (filled n d)
  = run (fun s k x => write (option_static (array_static T)) s k x) a' (length (d ++ vs)) (length rest) (filled n (d ++ vs)).
Proof.
  induction vs as [|v vs IH]; intros rest d a R I L; cbn [length] in *.
  - exists a. rewrite app_nil_r. auto.
  - cbn [map app] in I. destruct (both_step _ _ _ _ _ _ R I) as (a' & E & R' & I').
    cbn [Nat.add run]. rewrite (idx_st_ret _ _ _ _ _ E). cbn [write option_static].
    rewrite filled_write by lia. cbn [obind].
    replace (S (length d)) with (length (d ++ [v])) in * by (rewrite app_length; cbn; lia).
    destruct (IH rest (d ++ [v]) a' R' I') as (a2 & R2 & I2 & E2); [rewrite app_length; cbn; lia|].
    rewrite <- app_assoc in *. cbn [app] in *. exists a2. auto.
Qed.

Lemma run_result_oks T E n : forall vs rest d (a : adapter (T + E)), ready n (length d) a ->
  items n (length d) a (map inl vs ++ rest) -> length d + length vs + length rest = n ->
  exists a', ready n (length (d ++ vs)) a' /\ items n (length (d ++ vs)) a' rest /\
  run (fun s k x => write (result_static (array_static T)) s k x) a (length d) (length vs + length rest) (filled n d)
  = run (fun s k x => write (result_static (array_static T)) s k x) a' (length (d ++ vs)) (length rest) (filled n (d ++ vs)).
Proof.
  induction vs as [|v vs IH]; intros rest d a R I L; cbn [length] in *.
  - exists a. rewrite app_nil_r. auto.
  - cbn [map app] in I. destruct (both_step _ _ _ _ _ _ R I) as (a' & Q & R' & I').
    cbn [Nat.add run]. rewrite (idx_st_ret _ _ _ _ _ Q). cbn [write result_static].
    rewrite filled_write by lia. cbn [obind].
    replace (S (length d)) with (length (d ++ [v])) in * by (rewrite app_length; cbn; lia).
    destruct (IH rest (d ++ [v]) a' R' I') as (a2 & R2 & I2 & E2); [rewrite app_length; cbn; lia|].
    rewrite <- app_assoc in *. cbn [app] in *. exists a2. auto.
Qed.
