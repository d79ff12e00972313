(** C148: programs that catch the panics of BigInt operations. *)
From Coq Require Import ZArith List Bool Lia Permutation.
From Verif Require Import Base Words Spec BitSliceModel InternModel InternSpec InternProofs InternHist BigIntModel BigIntSpec BigIntProofs BigIntOps BigIntSafe
  BigIntRun BigIntHist BigIntUnwindModel BigIntUnwindProofs BigIntUnwindSpec BigIntCatch PropBigInt.
Import ListNotations.
Local Open Scope Z_scope.

(** ** The executions below are those of C57 and C58, continued after panics *)

Lemma named_agrees e u m st : agrees u m ->
  match named e u st with
  | Next e' st' false => bind_new e m st = Ok (e', st')
  | Next _ _ true | Abort => bind_new e m st = Panic
  | Starve => bind_new e m st = Timeout
  | Illegal => False
  end.
Proof.
  intros H. specialize (H st). unfold named, catching, bind_new. destruct (u st) as [c st'|st'| |]; rewrite H; reflexivity.
Qed.
Lemma ignored_agrees {A} e (u : U A) m st : agrees u m ->
  match ignored e u st with
  | Next e' st' false => ignoring e m st = Ok (e', st')
  | Next _ _ true | Abort => ignoring e m st = Panic
  | Starve => ignoring e m st = Timeout
  | Illegal => False
  end.
Proof.
  intros H. specialize (H st). unfold ignored, catching, ignoring. destruct (u st) as [c st'|st'| |]; rewrite H; reflexivity.
Qed.

Definition matches (ev : event) (r : res (env * istore)) : Prop :=
  match ev with
  | Next e' st' false => r = Ok (e', st')
  | Next _ _ true | Abort | Illegal => r = Panic
  | Starve => r = Timeout
  end.
Lemma matches_named e u m st : agrees u m -> matches (named e u st) (bind_new e m st).
Proof. intros H. pose proof (named_agrees e u m st H) as N. unfold matches. destruct (named e u st) as [e' st' []| | |]; auto. destruct N. Qed.
Lemma matches_ignored {A} e (u : U A) m st : agrees u m -> matches (ignored e u st) (ignoring e m st).
Proof. intros H. pose proof (ignored_agrees e u m st H) as N. unfold matches. destruct (ignored e u st) as [e' st' []| | |]; auto. destruct N. Qed.
Lemma borrow_panic e a : (exists x, borrow e a = Ok x) \/ borrow e a = Panic.
Proof. unfold borrow. destruct (nth_error e a) as [[x|]|]; eauto. Qed.
Lemma matches_borrowing e a k g st : (forall x, matches (k x st) (g x)) -> matches (borrowing e a k st) (do x <- borrow e a ;; g x).
Proof. intros H. unfold borrowing. destruct (borrow_panic e a) as [[x ->]| ->]; cbn [bind]; auto. reflexivity. Qed.
Lemma matches_taking e a k g st : (forall x e', matches (k x e' st) (g x e')) ->
  matches (taking e a k st) (do (x, e') <- take e a ;; g x e').
Proof.
  intros H. unfold taking, take. destruct (borrow_panic e a) as [[x ->]| ->]; cbn [bind]; auto. reflexivity.
Qed.
Lemma matches_typed t v k r st : matches (k st) r -> matches (typed t v k st) (if literal t v then r else Panic).
Proof. intros H. unfold typed. destruct (literal t v); auto. reflexivity. Qed.

Theorem C148_agrees : forall dbg c e st,
  match do_call dbg (Call c) e st with
  | Next e' st' false => step dbg c e st = Ok (e', st')
  | Next _ _ true | Abort | Illegal => step dbg c e st = Panic
  | Starve => step dbg c e st = Timeout
  end.
Proof.
  intros dbg c e st. change (matches (do_call dbg (Call c) e st) (step dbg c e st)).
  destruct c; cbn [do_call step]; try apply matches_typed;
    repeat first [apply matches_borrowing; intros | apply matches_taking; intros];
    try apply matches_named; try apply matches_ignored;
    auto using agrees_leaf, agrees_ret, agrees_operate, agrees_not, agrees_pow, agrees_cmp_int, agrees_try_from, agrees_truncate, agrees_saturate,
      agrees_display, agrees_upper_hex.
  - pose proof (agrees_from_str_radix dbg s radix st) as H. unfold catching.
    destruct (u_from_str_radix dbg s radix st) as [[c|er] st'|st'| |]; rewrite H; reflexivity.
  - apply agrees_by_val. intros x1 x2. apply agrees_operate.
  - apply agrees_by_val_ref. intros x1 x2. apply agrees_operate.
  - apply agrees_by_ref_val. intros x1 x2. apply agrees_operate.
  - apply agrees_op_int. intros x1 x2. apply agrees_operate.
Qed.
Print Assumptions C148_agrees.

(** An assigning operator does what the operator does whose left operand is taken by value, except
    that a panic leaves the target with the caller (below). *)
Lemma assign_agrees e a (u : Z -> U Z) (m : Z -> M Z) st : (forall x, agrees (u x) (m x)) ->
  matches (assigned e a u st)
    (do (x, e') <- take e a ;; bind_new e' (let! c := m x in let! _ := bi_drop x in ret c) st).
Proof.
  intros H. unfold assigned, borrowing, take. destruct (borrow_panic e a) as [[x B]|B]; rewrite B; cbn [bind]; [|reflexivity].
  unfold catching at 1, bind_new at 1, mbind at 1. specialize (H x st). destruct (u x st) as [c st'|st'| |]; rewrite H; cbn [bind matches]; auto.
  unfold taking, take. rewrite B. cbn [bind]. unfold named, catching, ubind, u_drop, leaf, uret, mbind, ret.
  destruct (bi_drop x st') as [[y st2]| |]; reflexivity.
Qed.
Lemma upd_comm (e : env) i j x y : i <> j -> upd (upd e i x) j y = upd (upd e j y) i x.
Proof.
  revert i j. induction e as [|z e IH]; intros [|i] [|j] H; try congruence; cbn [upd]; auto. f_equal. apply IH. congruence.
Qed.
Lemma nth_upd_other (e : env) i j x : i <> j -> nth_error (upd e i x) j = nth_error e j.
Proof. revert i j. induction e as [|z e IH]; intros [|i] [|j] H; cbn [upd nth_error]; try congruence; auto. Qed.
Lemma borrow_other e i j x : i <> j -> borrow (upd e i x) j = borrow e j.
Proof. intros H. unfold borrow. rewrite nth_upd_other by auto. auto. Qed.
Lemma bind_ext {A} (m1 m2 : M A) st : m1 st = m2 st -> forall k : A * istore -> res (env * istore), bind (m1 st) k = bind (m2 st) k.
Proof. intros ->. auto. Qed.

Theorem C148_assignments_agree : forall dbg o a b t v e st, a <> b ->
  let agree ev r := match ev with
    | Next e' st' false => r = Ok (e', st')
    | Next _ _ true | Abort | Illegal => r = Panic
    | Starve => r = Timeout
    end in
  agree (do_call dbg (AssignVal o a b) e st) (step dbg (ValVal o a b) e st) /\
  agree (do_call dbg (AssignRef o a b) e st) (step dbg (ValRef o a b) e st) /\
  agree (do_call dbg (AssignInt o a t v) e st) (step dbg (ValInt o a t v) e st).
Proof.
  intros dbg o a b t v e st Hab agree.
  assert (forall x1 x2, agrees (u_operate dbg o x1 x2) (operate dbg o x1 x2)) as HO by (intros; apply agrees_operate).
  change (matches (do_call dbg (AssignVal o a b) e st) (step dbg (ValVal o a b) e st) /\
    matches (do_call dbg (AssignRef o a b) e st) (step dbg (ValRef o a b) e st) /\
    matches (do_call dbg (AssignInt o a t v) e st) (step dbg (ValInt o a t v) e st)).
  cbn [do_call step]. split; [|split].
  - unfold taking, take. destruct (borrow_panic e b) as [[y B]|B].
    2: { rewrite B. cbn [bind]. destruct (borrow_panic e a) as [[x Bx]|Bx]; rewrite Bx; cbn [bind]; [|reflexivity].
         rewrite borrow_other by auto. rewrite B. reflexivity. }
    rewrite B. cbn [bind].
    pose proof (assign_agrees (upd e b None) a (fun x => u_by_ref_val (u_operate dbg o) x y) (fun x => by_ref_val (operate dbg o) x y) st
      (fun x => agrees_by_ref_val _ _ x y HO)) as H. unfold take in H. rewrite borrow_other in H by auto.
    destruct (borrow_panic e a) as [[x Bx]|Bx]; rewrite Bx in *; cbn [bind] in *; auto.
    rewrite borrow_other by auto. rewrite B. cbn [bind].
    rewrite upd_comm in H by auto. unfold bind_new, by_val, by_ref_val in *. rewrite mbind_assoc in H.
    erewrite bind_ext in H; [exact H|]. unfold mbind. destruct (operate dbg o x y st) as [[c st1]| |]; cbn [bind]; auto.
    destruct (bi_drop y st1) as [[z st2]| |]; cbn [bind]; auto.
  - unfold borrowing. pose proof (fun y => assign_agrees e a (fun x => u_operate dbg o x y) (fun x => operate dbg o x y) st (fun x => HO x y)) as H.
    unfold take in *. destruct (borrow_panic e a) as [[x Bx]|Bx].
    + rewrite Bx in *. cbn [bind] in *. rewrite borrow_other by auto.
      destruct (borrow_panic e b) as [[y B]|B]; rewrite B; cbn [bind]; [|reflexivity]. exact (H y).
    + rewrite Bx in *. cbn [bind] in *. destruct (borrow_panic e b) as [[y B]|B]; rewrite B; [exact (H y)|reflexivity].
  - apply matches_typed.
    pose proof (assign_agrees e a (fun x => u_assign_int dbg (u_operate dbg o) t x v)
      (fun x => let! b := bi_from dbg t v in by_ref_val (operate dbg o) x b) st) as H.
    assert (matches (assigned e a (fun x => u_assign_int dbg (u_operate dbg o) t x v) st)
      (do (x, e') <- take e a ;; bind_new e' (let! c := (let! b := bi_from dbg t v in by_ref_val (operate dbg o) x b) in let! _ := bi_drop x in ret c) st)) as H2.
    { apply H. intros x. unfold u_assign_int. apply agrees_bind; [apply agrees_leaf|]. intros y. apply agrees_by_ref_val. exact HO. }
    clear H. unfold take in *. destruct (borrow_panic e a) as [[x Bx]|Bx]; rewrite Bx in *; cbn [bind] in *; auto.
    unfold bind_new, op_int, by_val, by_ref_val in *. rewrite mbind_assoc in H2.
    erewrite bind_ext in H2; [exact H2|]. unfold mbind. destruct (bi_from dbg t v st) as [[y st0]| |]; cbn [bind]; auto.
    destruct (operate dbg o x y st0) as [[c st1]| |]; cbn [bind]; auto.
    destruct (bi_drop y st1) as [[z st2]| |]; cbn [bind]; auto.
Qed.
Print Assumptions C148_assignments_agree.

(** ** What a caught panic leaves *)

(** A call that panics takes the operands it was given by value with it, and nothing else: all other names, among
    them the target of an assigning operator, keep their values. *)
Lemma without_nil e : without [] e e.
Proof. split; auto. intros i. split; [intros []|auto]. Qed.
Lemma nth_upd_same (e : env) i x y : nth_error e i = Some y -> nth_error (upd e i x) i = Some x.
Proof. revert i. induction e as [|z e IH]; intros [|i] H; cbn [upd nth_error] in *; try discriminate; auto. Qed.
Lemma without_upd e i y : nth_error e i = Some y -> without [i] e (upd e i None).
Proof.
  intros H. split; [apply length_upd_env|]. intros j. split.
  - intros [<-|[]]. eapply nth_upd_same; eauto.
  - intros N. apply nth_upd_other. intros ->. apply N. left. auto.
Qed.
Lemma without_two e i j y z : nth_error e i = Some y -> nth_error (upd e i None) j = Some z -> without [i; j] e (upd (upd e i None) j None).
Proof.
  intros H1 H2. split; [rewrite !length_upd_env; auto|]. intros k. destruct (Nat.eq_dec j k) as [->|N].
  - split; [|intros Q; destruct Q; right; left; auto]. intros _. eapply nth_upd_same; eauto.
  - rewrite nth_upd_other by auto. destruct (Nat.eq_dec i k) as [->|N2].
    + split; [intros _; eapply nth_upd_same; eauto|intros Q; destruct Q; left; auto].
    + rewrite nth_upd_other by auto. split; [intros [Q|[Q|[]]]; congruence|auto].
Qed.

Lemma named_panic e u st e' st' : named e u st = Next e' st' true -> e' = e.
Proof. unfold named, catching. destruct (u st); intros; congruence. Qed.
Lemma ignored_panic {A} e (u : U A) st e' st' : ignored e u st = Next e' st' true -> e' = e.
Proof. unfold ignored, catching. destruct (u st); intros; congruence. Qed.
Lemma assigned_panic P e0 e refs ins st a x u Q e' st' : Permutation (handles e0) (ins ++ handles e) ->
  incl refs (handles e) -> consistent P st (handles e0) -> room P (handles e0) 8 ->
  nth_error e a = Some (Some x) -> usafe P 7 refs ins (u x) one Q -> assigned e a u st = Next e' st' true -> e' = e.
Proof.
  intros Hp Hi Hc Hr Ha S E. assert (consistent P st (ins ++ handles e)) as Hc' by (eapply con_perm; eauto).
  assert (room P (handles e) 7) as Hr7. { unfold room in *. rewrite (live_perm _ _ Hp), live_app in Hr. lia. }
  specialize (S st (handles e) Hc' Hr7 Hi). unfold assigned, borrowing in E.
  assert (borrow e a = Ok x) as Hb by (unfold borrow; rewrite Ha; reflexivity).
  rewrite Hb in E. unfold catching at 1 in E. destruct (u x st) as [c st1|st1| |]; try discriminate; [|congruence].
  destruct S as (C & K & _). unfold taking, take in E. rewrite Hb in E. cbn [bind] in E.
  assert (consistent P st1 (x :: c :: handles (upd e a None))) as C1.
  { eapply con_perm; [|exact C]. unfold one. cbn [app]. rewrite (upd_handles e a x Ha). apply perm_swap. }
  destruct (drop_spec P st1 _ x C1) as (st2 & E2 & _ & _).
  unfold named, catching, ubind, u_drop, leaf, uret in E. rewrite E2 in E. discriminate.
Qed.

Ltac borrowsE E := unfold borrowing at 1 in E;
  match type of E with context [borrow ?e ?a] =>
    let x := fresh "x" in let H := fresh "B" in
    destruct (borrow e a) as [x| |] eqn:H; [|discriminate E|discriminate E]; apply borrow_ok in H end.
Ltac takesE E := unfold taking at 1 in E;
  match type of E with context [take ?e ?a] =>
    let x := fresh "x" in let e1 := fresh "e" in let H := fresh "T" in
    destruct (take e a) as [[x e1]| |] eqn:H; [|discriminate E|discriminate E]; apply take_ok in H; destruct H as (? & -> & H) end.
Ltac typesE E := unfold typed at 1 in E;
  match type of E with context [literal ?t ?v] =>
    destruct (literal t v) eqn:HL; [|discriminate E]; apply literal_ok in HL; destruct HL as [HL1 HL2] end.

Lemma call_left dbg P c e st e' st' : consistent P st (handles e) -> room P (handles e) 8 ->
  do_call dbg c e st = Next e' st' true -> without (operands c) e e'.
Proof.
  intros Hc Hr E. destruct c as [c|o a b|o a b|o a t v]; [destruct c|..]; cbn [do_call operands] in *;
    try typesE E; repeat first [takesE E | borrowsE E];
    try (apply named_panic in E; subst e'); try (apply ignored_panic in E; subst e');
    try (first [apply without_nil | eapply without_upd; eassumption | eapply without_two; eassumption]).
  - unfold catching in E. destruct (u_from_str_radix dbg s radix st) as [[c|er] st1|st1| |]; try discriminate.
    assert (e' = e) as -> by congruence. apply without_nil.
  - destruct (borrow (upd e b None) a) as [x0| |] eqn:B; [|unfold assigned, borrowing in E; rewrite B in E; discriminate..].
    apply borrow_ok in B. pose proof (nth_handles _ _ _ B) as N.
    apply (assigned_panic P e _ [x0] [x]) with (x := x0) (Q := nonnz) in E; auto; [|intros y [<-|[]]; auto|apply usafe_by_ref_val; [lia|right; left; auto]].
    subst e'. eapply without_upd; eauto.
  - pose proof (nth_handles _ _ _ B) as N.
    destruct (borrow e a) as [x0| |] eqn:B2; [|unfold assigned, borrowing in E; rewrite B2 in E; discriminate..].
    apply borrow_ok in B2. pose proof (nth_handles _ _ _ B2) as N2.
    apply (assigned_panic P e e [x0; x] []) with (x := x0) (Q := nonnz) in E; auto;
      [|intros y [<-|[<-|[]]]; auto|apply usafe_operate; [lia|left; auto|right; left; auto]].
    subst e'. apply without_nil.
  - destruct (borrow e a) as [x0| |] eqn:B2; [|unfold assigned, borrowing in E; rewrite B2 in E; discriminate..].
    apply borrow_ok in B2. pose proof (nth_handles _ _ _ B2) as N2.
    apply (assigned_panic P e e [x0] []) with (x := x0) (Q := nonnz) in E; auto;
      [|intros y [<-|[]]; auto|apply usafe_assign_int; auto; [lia|left; auto]].
    subst e'. apply without_nil.
Qed.

(** In every program (started with an empty store) whose panics are caught, at every point: the
    next call does not abort the process.  If it panics, exactly the operands it took by value are gone.  Whether it
    panics or not, the values that are still there are as before, and every reference count is the number of values that refer to the
    slot.  (As in C57, fewer than 2^61 BigInts at a time.) *)
Theorem C148_caught : forall dbg cs e st p c,
  catch_run dbg cs [] interner_new 0 = Some (e, st, p) -> Z.of_nat p + 8 < 2 ^ 61 ->
  match do_call dbg c e st with
  | Abort => False
  | Next e' st' panicked =>
      (panicked = true -> without (operands c) e e') /\
      (forall i h, (i < length e)%nat -> nth_error e' i = Some (Some h) ->
         nth_error e i = Some (Some h) /\ exists v, denotes st h v /\ denotes st' h v) /\
      (forall k, 0 <= k < 32 * Z.of_nat (length st') -> refcount st' k = Ok (Z.of_nat (uses k (handles e')))) /\
      consistent (Z.of_nat p + 8) st' (handles e')
  | _ => True
  end.
Proof.
  intros dbg cs e st p c E Hp.
  destruct (catch_sound dbg (Z.of_nat p + 8) cs [] interner_new 0 e st p) as [S L]; auto; try lia; [apply con_empty; lia|].
  destruct S as (C & _ & _). assert (room (Z.of_nat p + 8) (handles e) 8) as R by (unfold room; lia).
  pose proof (call_sound dbg _ c e st C R) as S. pose proof (fun e' st' => call_left dbg _ c e st e' st' C R) as W.
  destruct (do_call dbg c e st) as [e' st' b| | |]; cbn [lands] in S; auto.
  destruct S as (C' & [KL K] & V). split; [intros ->; eapply W; eauto|]. split; [|split; [apply (con_refs _ _ _ C')|exact C']].
  intros i h Hi H. pose proof (K i h Hi H) as H1. split; auto.
  destruct (denotes_ex _ _ _ _ C (nth_handles _ _ _ H1)) as (v & D1). exists v. split; auto. eapply V; eauto.
Qed.
Print Assumptions C148_caught.

(** Over whole programs: values that exist at two points in time are the same at both, and once
    no value is left every slot is free, however many panics were caught. *)
Theorem C148_programs : forall dbg cs1 cs2 e1 st1 p1 e2 st2 p2,
  catch_run dbg cs1 [] interner_new 0 = Some (e1, st1, p1) -> catch_run dbg cs2 e1 st1 p1 = Some (e2, st2, p2) ->
  Z.of_nat p2 + 8 < 2 ^ 61 ->
  (forall i h, (i < length e1)%nat -> nth_error e2 i = Some (Some h) ->
     nth_error e1 i = Some (Some h) /\ exists v, denotes st1 h v /\ denotes st2 h v) /\
  (length st2 <= 1 + p2)%nat /\
  ((forall i h, nth_error e2 i <> Some (Some h)) ->
     forall k, 0 <= k < 32 * Z.of_nat (length st2) -> refcount st2 k = Ok 0 /\ try_get st2 k = Ok None).
Proof.
  intros dbg cs1 cs2 e1 st1 p1 e2 st2 p2 E1 E2 Hp. pose proof (catch_peak _ _ _ _ _ _ _ _ E2) as Hpk.
  destruct (catch_sound dbg (Z.of_nat p2 + 8) cs1 [] interner_new 0 e1 st1 p1) as [(C1 & _ & _) L1]; auto; try lia; [apply con_empty; lia|].
  destruct (catch_sound dbg (Z.of_nat p2 + 8) cs2 e1 st1 p1 e2 st2 p2 C1 L1 E2 ltac:(lia)) as [(C & [KL K] & V) L2].
  split; [|split].
  - intros i h Hi H. pose proof (K i h Hi H) as H1. split; auto.
    destruct (denotes_ex _ _ _ _ C1 (nth_handles _ _ _ H1)) as (v & D1). exists v. split; auto. eapply V; eauto.
  - pose proof (con_size _ _ _ C). lia.
  - intros Hd k Hk. assert (handles e2 = []) as H0.
    { destruct (handles e2) as [|h l] eqn:Eh; auto. exfalso.
      assert (In h (handles e2)) as Hin by (rewrite Eh; left; auto).
      unfold handles in Hin. apply in_flat_map in Hin. destruct Hin as (o & Ho & Hin). destruct o as [h'|]; [|destruct Hin].
      apply In_nth_error in Ho. destruct Ho as [i Hi]. eapply Hd; eauto. }
    pose proof (con_refs _ _ _ C k Hk) as R. rewrite H0 in R. split; auto.
    destruct (in_range_slot st2 k (con_shape _ _ _ C) Hk) as [s Es].
    rewrite (try_get_spec st2 k s) by (auto; try apply (con_shape _ _ _ C); lia).
    unfold refcount in R. pose proof (slot_at_offset st2 k (con_shape _ _ _ C) ltac:(lia)) as H.
    destruct (offset_to_idx k). rewrite H, Es in R. cbn [unwrap bind] in R.
    assert (refs s = 0) as -> by (cbn in R; congruence). reflexivity.
Qed.
Print Assumptions C148_programs.

(** [a << -1] by value and [a /= 2^64] panic, both caught: the first takes [a] and the amount with it, the second leaves
    its target as it was; the clone of [a] is not affected, and the bounds that the shift interned are released. *)
Example C148_demo : exists e st p h,
  catch_run true [Call (From U128 (2 ^ 100)); Call (Clone 0); Call (From I32 (-1)); Call (ValVal OShl 0 2);
    Call (From I32 7); AssignInt ODiv 3 U128 (2 ^ 64)] [] interner_new 0 = Some (e, st, p) /\
  e = [None; Some h; None; Some 30] /\ denotes st h (2 ^ 100) /\ denotes st 30 7 /\ refcount st (h / 4) = Ok 1 /\ p = 2%nat.
Proof.
  do 4 eexists. split; [vm_compute; reflexivity|]. split; [reflexivity|]. split.
  - eexists. split; vm_compute; reflexivity.
  - split; [vm_compute; reflexivity|]. split; vm_compute; reflexivity.
Qed.
