(** C168: arithmetic on BigInts by several threads at once. *)
From Coq Require Import ZArith List Bool PeanoNat Lia Permutation.
From Verif Require Import Base Words Spec Arith BitSliceModel BitSliceProofs InternModel InternProofs BigIntModel BigIntSpec BigIntProofs BigIntOps BigIntConv BigIntMore BigIntRun PropBigInt BigIntExprModel PropBigIntExpr
  ConcArithModel ConcArithSame ConcArithWp
  ConcInternModel ConcInternSpec ConcInternProofs ConcInternMore PropInternProgress PropInternOverlap ConcBigIntModel PropConcBigInt ConcArithProofs.
Import ListNotations.
Local Open Scope Z_scope.

(** ** Specification *)

(** [w] is the integer [x], small or through one of the handles [ms] (see [made] of PropConcBigInt.v, which allows any). *)
Definition made_by (cf : iconf (list Z)) (ms : list nat) (x w : Z) : Prop :=
  exists l, wf 64 l /\ canonical l /\ val 64 l = Z.abs x /\
  if Nat.eqb (length l) 1 && (zget l 0 <=? max_offset) then new_inline (zget l 0) (x <? 0) = Ok w
  else exists m h, In m ms /\ nth_error (handles cf) m = Some h /\ hst h <> Gone /\ hval h = l /\
    to_new (hid h) (if x <? 0 then TNeg else TNone) = Ok w.

(** The variables [vars] that the threads share are the integers [xs]; [vs] are their handles. *)
Definition variables (cf : iconf (list Z)) (vs : list nat) (vars xs : list Z) : Prop :=
  (forall m, In m vs -> exists h, nth_error (handles cf) m = Some h /\ hst h <> Gone) /\
  forall i, (i < length xs)%nat -> made_by cf vs (nth i xs 0) (nth i vars 0).

(** Every operation of [e] is one of those whose result on one thread is known, right or wrong ([outcome] of C151_any): there are limits for
    [/], [%] and the shifts only, and powers of exponents above [fuel] are not modelled. *)
Definition sound (dbg : bool) (fuel : nat) (xs : list Z) (e : expr) : Prop :=
  everywhere_with outcome (fit_op dbg) (fun _ y => 0 <= y <= Z.of_nat fuel) (fun x => x <> 0) xs e.

(** The execution: no count reaches 2^64 - 1, calls of [add] that write to the interner overlap no others, and it has at most 2^62 slots. *)
Definition in_bounds (dbg : bool) (n : nat) (acts : list (action (list Z))) : Prop :=
  counts_fit list_eqb dbg (start n) acts /\ writers_alone list_eqb dbg (start n) acts /\
  Z.of_nat (length (ConcInternModel.istore (run dbg n acts))) <= 2 ^ 57.

(** ** The programs are the code *)

(** Run by one thread, the programs that the threads execute are the functions that C41-C61 and C151 are about. *)
Theorem C168_same_code : forall dbg fuel vars e st, ConcArithModel.alone dbg (p_eval dbg fuel vars e) st = eval dbg fuel vars e st.
Proof. intros. apply same_eval. Qed.
Print Assumptions C168_same_code.

(** ** Words and references *)

Lemma made_num cf ms x w : made_by cf ms x w -> (forall m h, nth_error (handles cf) m = Some h -> 0 <= hid h <= max_offset) ->
  exists l, num w l x /\ incl (ref w l) (map (entry cf) ms).
Proof.
  intros (l & W & C & E & M) Hid. assert (signed (x <? 0) (Z.abs x) = x) as Es. { unfold signed. destruct (Z.ltb_spec x 0); lia. }
  exists l. destruct (Nat.eqb (length l) 1 && (zget l 0 <=? max_offset)) eqn:Ei.
  - apply andb_true_iff in Ei. destruct Ei as [E1 E2]. apply Nat.eqb_eq in E1. apply Z.leb_le in E2. destruct l as [|d [|? ?]]; try discriminate E1.
    change (zget [d] 0) with d in *. cbn [val] in E. rewrite Z.mul_0_r, Z.add_0_r in E. subst d. destruct (num_inline (Z.abs x) (x <? 0)) as (w' & Ew & N & Rf); [lia|].
    assert (w' = w) by congruence. subst w'. rewrite Es in N. rewrite Rf. split; auto. intros ? [].
  - destruct M as (m & h & I & Eh & Hg & Hv & Hw). destruct (num_intern l (x <? 0) (hid h)) as (w' & Ew & N & Rf); auto; [apply big_limbs; auto|apply (Hid m); auto|].
    assert (w' = w) by congruence. subst w'. rewrite E, Es in N. rewrite Rf. split; auto. intros ? [<-|[]]. rewrite <- Hv.
    replace (hid h, hval h) with (entry cf m) by (unfold entry; rewrite Eh; reflexivity). apply in_map. auto.
Qed.

Lemma num_made cf ms x w l : num w l x -> incl (ref w l) (map (entry cf) ms) -> (forall m, In m ms -> usable_now cf m) ->
  (forall m h, nth_error (handles cf) m = Some h -> 0 <= hid h <= max_offset) -> made_by cf ms x w.
Proof.
  intros N I U Hid. pose proof (num_facts _ _ _ N) as (W & C & Len & Ev & Eo & _). destruct N as (_ & _ & Ex & Nz & Rw & D).
  pose proof (word_split w ltac:(lia)) as Ws. rewrite tag_of_bits in Ws. assert (w / 4 < 2 ^ 62) as Lw by (apply Z.div_lt_upper_bound; lia). assert (0 <= w / 4) as Lw' by (apply Z.div_pos; lia).
  exists l. split; auto. split; auto. split; auto. unfold ref in I. destruct (Z.testbit w 1) eqn:Eb.
  - subst l. change (zget [w / 4] 0) with (w / 4). change (Nat.eqb (length [w / 4]) 1) with true. rewrite max_offset_val, (proj2 (Z.leb_le _ _)) by lia. cbn [andb].
    unfold new_inline. rewrite to_new_ok by (rewrite max_offset_val; lia). f_equal. etransitivity; [|symmetry; exact Ws]. f_equal. f_equal. rewrite <- Eo. destruct (Z.odd w); [|rewrite andb_false_r; auto].
    destruct (Z.eqb_spec (w / 4) 0) as [E0|E0]; auto. exfalso. apply Nz. rewrite Ws, E0. reflexivity.
  - destruct (Nat.eqb (length l) 1 && (zget l 0 <=? max_offset)) eqn:Ei.
    { exfalso. apply andb_true_iff in Ei. destruct Ei as [E1 E2]. apply Nat.eqb_eq in E1. apply Z.leb_le in E2. rewrite max_offset_val in E2.
      destruct l as [|d [|? ?]]; try discriminate E1. change (zget [d] 0) with d in *. cbn [val] in D. lia. }
    specialize (I _ (or_introl eq_refl)). apply in_map_iff in I. destruct I as (m & Em & I). destruct (U m I) as (h & Eh & Hg). unfold entry in Em. rewrite Eh in Em. injection Em as E1 E2.
    exists m, h. split; auto. split; auto. split; auto. split; auto. rewrite to_new_ok by (apply (Hid m); auto). rewrite E1, <- Eo. f_equal. symmetry. exact Ws.
Qed.
Lemma made_by_made cf ms x w : made_by cf ms x w -> made cf x w.
Proof.
  intros (l & W & C & E & M). exists l. split; auto. split; auto. split; auto. unfold is_word. destruct (_ && _); auto. destruct M as (m & h & _ & M). eauto.
Qed.
Lemma small_ref w l x : num w l x -> Z.abs x < 2 ^ 62 -> ref w l = [].
Proof. intros N H. pose proof (num_facts _ _ _ N) as (_ & _ & _ & Ev & _). destruct N as (_ & _ & _ & _ & _ & D). unfold ref. destruct (Z.testbit w 1); auto. lia. Qed.

(** ** Soundness *)
Section Threads.
Context (dbg : bool) (n fuel : nat) (acts : list (action (list Z))) (vs : list nat) (vars xs : list Z) (es : list expr).
Context (HQt : quiet (run dbg n acts)) (HV : variables (run dbg n acts) vs vars xs) (HE : forall e, In e es -> sound dbg fuel xs e).
Let cf0 := run dbg n acts.
Let V := map (entry cf0) vs.
Let bc0 := bstart dbg fuel acts vars es.
Definition result (t : nat) (O : list (Z * list Z)) (w : Z) : Prop :=
  exists l, num w l (match nth_error es t with Some e => value_with outcome xs e | None => 0 end) /\ Permutation O (ref w l).

Lemma result_perm t O O' w : Permutation O O' -> result t O w -> result t O' w.
Proof. intros P (l & N & P'). exists l. split; auto. rewrite <- P. exact P'. Qed.

Lemma start_inv : fine dbg n acts -> binv dbg n vs V (length (handles cf0)) result bc0.
Proof.
  intros HF. pose proof (fine_id dbg n acts) as Hid. destruct HV as [HV1 HV2]. unfold bc0, bstart. constructor; cbn [bdone bprogs bowned]; fold cf0.
  - rewrite map_length, repeat_length. reflexivity.
  - intros t p ms Ep Em. assert (ms = []) as ->. { apply nth_error_In, repeat_spec in Em. auto. } cbn [map].
    destruct (nth_error es t) as [e|] eqn:Ee.
    + rewrite (map_nth_error _ _ _ Ee) in Ep. injection Ep as <-. apply wp_eval with (xs := xs).
      * intros i Hi. destruct (made_num cf0 vs _ _ (HV2 i Hi)) as (l & N & I); [intros m h E; apply (Hid m h HF E)|]. eauto.
      * intros O O' w P R. eapply result_perm; eauto.
      * apply HE. eapply nth_error_In; eauto.
      * left. reflexivity.
      * rewrite app_nil_r. apply fine_fn; auto.
      * intros c lc Nc Fc. exists lc. rewrite Ee, app_nil_r. auto.
    + exfalso. assert (nth_error (map (p_eval dbg fuel vars) es) t = None) by (apply nth_error_None; rewrite map_length; apply nth_error_None; auto). congruence.
  - reflexivity.
  - intros t q E. exfalso. unfold quiet in HQt. fold cf0 in HQt. rewrite Forall_forall in HQt. specialize (HQt _ (nth_error_In _ _ E)). discriminate.
  - intros m [I|I]; [apply HV1; auto|]. exfalso. clear - I. induction (length es); cbn in I; auto.
  - clear. induction (length es); cbn; auto. constructor.
  - intros m _ I. clear - I. induction (length es); cbn in I; auto.
  - intros m (h & E & _). left. apply nth_error_Some. congruence.
Qed.

Lemma reached sched : let bc := bexec dbg n vs sched bc0 in in_bounds dbg n (bdone bc) -> fine dbg n (bdone bc) /\ binv dbg n vs V (length (handles cf0)) result bc.
Proof.
  intros bc HF. split; [exact HF|]. apply binv_exec; [intros ? ? ? ? P R; eapply result_perm; eauto| |exact HF]. apply start_inv.
  destruct (bexec_done dbg n vs sched bc0) as (l & E). fold bc in E. unfold bc0 in E at 1. cbn [bstart bdone] in E. unfold in_bounds in HF. rewrite E in HF. exact (fine_prefix _ _ _ _ HF).
Qed.
End Threads.

(** ** Statements *)

(** Threads that evaluate expressions of shared BigInts and literals at the same time, in any interleaving of the steps of their calls on
    the interner: whoever is finished has the integer that the operators return one after the other in one thread ([outcome], C151_any; the integer that
    the expression stands for where C168_right_values_partial says so), through a reference of its own; the variables are what
    they were; nobody has panicked; and every reference that is left is one that was there before, or belongs to a thread's result or to
    what the thread still needs, at the end at most one each, and none for a small result. *)
Theorem C168_expressions_partial : forall dbg n fuel acts vs vars xs es sched,
  quiet (run dbg n acts) -> variables (run dbg n acts) vs vars xs -> (forall e, In e es -> sound dbg fuel xs e) ->
  let bc := bexec dbg n vs sched (bstart dbg fuel acts vars es) in
  let cf := run dbg n (bdone bc) in
  in_bounds dbg n (bdone bc) ->
  (forall t e r, nth_error es t = Some e -> nth_error (bprogs bc) t = Some (PStop r) ->
     exists w ms, r = Ok w /\ nth_error (bowned bc) t = Some ms /\ made_by cf ms (value_with outcome xs e) w /\
       denotes (ConcInternModel.istore cf) w (value_with outcome xs e) /\ (length ms <= 1)%nat /\ (Z.abs (value_with outcome xs e) < 2 ^ 62 -> ms = [])) /\
  (forall i, (i < length xs)%nat -> made_by cf vs (nth i xs 0) (nth i vars 0) /\ denotes (ConcInternModel.istore cf) (nth i vars 0) (nth i xs 0)) /\
  (forall t, place cf t <> Some Broken) /\
  (forall m h, nth_error (handles cf) m = Some h -> hst h <> Gone ->
     (m < length (handles (run dbg n acts)))%nat \/ exists t ms, nth_error (bowned bc) t = Some ms /\ In m ms).
Proof.
  intros dbg n fuel acts vs vars xs es sched HQt HV HE bc cf HF.
  destruct (reached dbg n fuel acts vs vars xs es HQt HV HE sched HF) as [HF' HB]. fold bc in HF', HB.
  pose proof (fun m h => fine_id dbg n _ m h HF') as Hid. fold cf in Hid. pose proof (C157_values_partial dbg n (bdone bc) (proj1 HF) (proj1 (proj2 HF))) as [D _]. fold cf in D.
  split; [|split; [|split]].
  - intros t e r Ee Ep. assert (exists ms, nth_error (bowned bc) t = Some ms) as (ms & Em).
    { destruct (nth_error (bowned bc) t) eqn:E; eauto. apply nth_error_None in E. assert (t < length (bprogs bc))%nat by (apply nth_error_Some; congruence).
      rewrite (b_len _ _ _ _ _ _ _ HB) in *. lia. }
    destruct (b_prog _ _ _ _ _ _ _ HB _ _ _ Ep Em) as (w & -> & l & N & P). rewrite Ee in N. fold cf in P.
    assert (made_by cf ms (value_with outcome xs e) w) as M.
    { apply (num_made cf ms _ w l); auto.
      - intros x I. eapply Permutation_in; [symmetry; exact P|exact I].
      - intros m I. apply (b_live _ _ _ _ _ _ _ HB). right. eapply in_concat_at; eauto. }
    exists w, ms. split; auto. split; auto. split; auto. split; [apply D, (made_by_made _ _ _ _ M)|].
    split; [apply Permutation_length in P; rewrite map_length in P; rewrite P; unfold ref; destruct (Z.testbit w 1); cbn; lia|].
    intros Hs. rewrite (small_ref _ _ _ N Hs) in P. apply Permutation_sym, Permutation_nil in P. destruct ms; [auto|discriminate].
  - intros i Hi.
    assert (made_by cf vs (nth i xs 0) (nth i vars 0)) as M.
    { destruct (made_num _ _ _ _ (proj2 HV i Hi)) as (l & N & I).
      { destruct (bexec_done dbg n vs sched (bstart dbg fuel acts vars es)) as (ext & E). fold bc in E. cbn [bstart bdone] in E. unfold in_bounds in HF. rewrite E in HF.
        pose proof (fine_prefix _ _ _ _ HF) as F0. intros m h Eh. apply (fine_id dbg n acts m h F0 Eh). }
      apply (num_made cf vs _ _ l); auto.
      - rewrite (b_vars _ _ _ _ _ _ _ HB : map (entry cf) vs = _). exact I.
      - intros m J. apply (b_live _ _ _ _ _ _ _ HB). auto. }
    split; auto. apply D, (made_by_made _ _ _ _ M).
  - intros t E. unfold place in E. destruct (nth_error (ithreads cf) t) as [p|] eqn:Et; [|discriminate]. subst p. exact (ij_pc _ _ (fine_inv _ _ _ HF') _ _ Et).
  - intros m h E Hg. destruct (b_left _ _ _ _ _ _ _ HB m (ex_intro _ h (conj E Hg))) as [L|L]; auto. right. apply in_concat in L. destruct L as (ms & I & J).
    apply In_nth_error in I. destruct I as (t & I). eauto.
Qed.
Print Assumptions C168_expressions_partial.

(** Where every sum and difference of an expression is one of those that come out right (C44), the integer returned is the one that the
    expression stands for. *)
Theorem C168_right_values_partial : forall dbg fuel xs e,
  everywhere (right_op dbg) (fun _ y => 0 <= y <= Z.of_nat fuel) (fun x => x <> 0) xs e -> sound dbg fuel xs e /\ value_with outcome xs e = value xs e.
Proof. intros dbg fuel xs e. apply right_returned. Qed.
Print Assumptions C168_right_values_partial.

(** A thread that is not finished can always take a step. *)
Theorem C168_no_deadlock_partial : forall dbg n fuel acts vs vars xs es sched t e,
  quiet (run dbg n acts) -> variables (run dbg n acts) vs vars xs -> (forall e, In e es -> sound dbg fuel xs e) -> (length es <= n)%nat ->
  let bc := bexec dbg n vs sched (bstart dbg fuel acts vars es) in
  in_bounds dbg n (bdone bc) ->
  nth_error es t = Some e -> finished bc t \/ exists m, bdone (bstep dbg n vs bc (t, m)) <> bdone bc.
Proof.
  intros dbg n fuel acts vs vars xs es sched t e HQt HV HE Hn bc HF Ee.
  destruct (reached dbg n fuel acts vs vars xs es HQt HV HE sched HF) as [HF' HB]. fold bc in HF', HB.
  assert (t < n)%nat as Ht. { assert (t < length es)%nat by (apply nth_error_Some; congruence). lia. }
  assert (forall s b, length (bprogs (bexec dbg n vs s b)) = length (bprogs b)) as LP.
  { induction s as [|[u m] s IH]; intros b; [reflexivity|]. cbn [bexec fold_left]. fold (bexec dbg n vs s (bstep dbg n vs b (u, m))). rewrite IH. unfold bstep.
    destruct (nth_error (ithreads (run dbg n (bdone b))) u) as [[q|]|]; auto; destruct (nth_error (bprogs b) u); auto; destruct (nth_error (bowned b) u); auto.
    - destruct (nth_error (ithreads (run dbg n (bdone b ++ [Go u]))) u) as [[?|]|]; auto. destruct (resume _ _ _ _ _). cbn [bprogs]. apply len_upd.
    - destruct (next_call _ _ _ _ _); auto. }
  destruct (nth_error (bprogs bc) t) as [p|] eqn:Ep.
  - assert ((exists r, p = PStop r) \/ forall r, p <> PStop r) as [[r ->]|NS]; [destruct p; eauto; right; discriminate|left; exists r; auto|]. right.
    eapply can_step; eauto.
  - exfalso. apply nth_error_None in Ep. unfold bc in Ep. rewrite LP in Ep. cbn [bstart bprogs] in Ep. rewrite map_length in Ep. apply nth_error_None in Ep. congruence.
Qed.
Print Assumptions C168_no_deadlock_partial.

(** In an endless execution every thread that keeps taking steps finishes its evaluation, whatever the others do. *)
Theorem C168_finishes_partial : forall dbg n fuel acts vs vars xs es (f : nat -> nat * nat) t e,
  quiet (run dbg n acts) -> variables (run dbg n acts) vs vars xs -> (forall e, In e es -> sound dbg fuel xs e) -> (length es <= n)%nat ->
  let bc k := bexec dbg n vs (map f (seq 0 k)) (bstart dbg fuel acts vars es) in
  (forall k, in_bounds dbg n (bdone (bc k))) ->
  nth_error es t = Some e ->
  (forall k, finished (bc k) t \/ exists k', (k <= k')%nat /\ fst (f k') = t /\ bdone (bc (S k')) <> bdone (bc k')) ->
  exists k, finished (bc k) t.
Proof.
  intros dbg n fuel acts vs vars xs es f t e HQt HV HE Hn bc HF Ee HS.
  assert (t < n)%nat as Ht. { assert (t < length es)%nat by (apply nth_error_Some; congruence). lia. }
  eapply (finishes_all dbg n vs (map (entry (run dbg n acts)) vs) (length (handles (run dbg n acts))) (result xs es)
    ltac:(intros ? ? ? ? P R; eapply result_perm; eauto) f (bstart dbg fuel acts vars es) t (p_eval dbg fuel vars e)).
  - apply start_inv; auto. exact (HF 0%nat).
  - cbn [bstart bprogs]. apply map_nth_error. exact Ee.
  - cbn [bstart bdone]. destruct (nth_error (ithreads (run dbg n acts)) t) as [p|] eqn:E.
    + unfold quiet in HQt. rewrite Forall_forall in HQt. rewrite (HQt _ (nth_error_In _ _ E)). reflexivity.
    + exfalso. apply nth_error_None in E. rewrite run_len in E. lia.
  - exact HF.
  - exact HS.
Qed.
Print Assumptions C168_finishes_partial.

(** ** Without the condition on writers *)

Definition t_u128 : ity := {| ibits := 128; isigned := false |}.

(** A BigInt was made and dropped; then two threads convert 5 * 2^64 and 7 * 2^64 from [u128], step by step in turn.  Both are given the
    same word, and the first BigInt is not 5 * 2^64. *)
Theorem C168_refuted : exists acts sched x y w, let bc := bexec true 2 [] sched (bstart true 0 acts [] [Lit t_u128 x; Lit t_u128 y]) in
  let cf := run true 2 (bdone bc) in
  quiet (run true 2 acts) /\ (forall z, In z [x; y] -> BitSliceModel.in_range t_u128 z = true) /\ x <> y /\
  bprogs bc = [PStop (Ok w); PStop (Ok w)] /\ ~ denotes (ConcInternModel.istore cf) w x.
Proof.
  exists (Begin 0 (CAdd [0; 1]) :: repeat (Go 0) 4 ++ [Begin 0 (CDecr 0); Go 0]), (concat (repeat [(0%nat, 0%nat); (1%nat, 0%nat)] 12)), (5 * 2 ^ 64), (7 * 2 ^ 64), 0.
  cbv zeta. split; [|split; [|split; [discriminate|split]]].
  - unfold quiet. replace (ithreads _) with (@repeat (option (ipc (list Z))) None 2) by (vm_compute; reflexivity). repeat constructor.
  - intros z [<-|[<-|[]]]; vm_compute; reflexivity.
  - vm_compute. reflexivity.
  - intros (l & E & V). vm_compute in E. injection E as <-. vm_compute in V. discriminate.
Qed.
Print Assumptions C168_refuted.

(** ** A case *)

(** One thread has made x = 5 * 2^64; two threads compute x + x and (x + x.clone()) * 3 at the same time. *)
Definition demo_before : list (action (list Z)) := Begin 0 (CAdd [0; 5]) :: repeat (Go 0) 4.
Definition demo_exprs : list expr := [VarVar OAdd 0 0; ExpInt OMul (VarExp OAdd 0 (Cloned 0)) t_i32 3].
Definition demo_turns : list (nat * nat) :=
  concat (repeat [(0, 0); (1, 0)] 6)%nat ++ repeat (0, 0)%nat 20 ++ concat (repeat [(1, 0); (1, 1); (1, 2); (1, 3); (1, 4)] 6)%nat.
Definition demo_end : bconf := bexec true 2 [0%nat] demo_turns (bstart true 0 demo_before [0] demo_exprs).

Lemma demo_bounds : in_bounds true 2 (bdone demo_end).
Proof.
  set (acts := bdone demo_end). vm_compute in acts.
  assert (H : forallb (fun k => let cf := iexec list_eqb true (firstn k acts) (start 2) in
      Nat.leb (length (filter adding (ithreads cf))) 1 && Nat.leb (length (handles cf) + length (ithreads cf)) 10) (seq 0 (S (length acts))) = true)
    by (vm_compute; reflexivity).
  assert (forall a1 a2, acts = a1 ++ a2 -> let cf := iexec list_eqb true a1 (start 2) in
    (length (filter adding (ithreads cf)) <= 1)%nat /\ (length (handles cf) + length (ithreads cf) <= 10)%nat) as K.
  { intros a1 a2 E. rewrite forallb_forall in H. specialize (H (length a1)).
    rewrite E, firstn_app, Nat.sub_diag, firstn_all, app_nil_r in H. specialize (H ltac:(apply in_seq; rewrite app_length; lia)).
    apply andb_true_iff in H. destruct H as [X Y]. apply Nat.leb_le in X, Y. auto. }
  split; [|split; [apply C62_condition; intros a1 a2 E; apply (K a1 a2 E)|vm_compute; discriminate]].
  intros a1 a2 k E cf'. destruct (K a1 a2 E) as [_ Y]. fold cf' in Y. unfold held, arriving.
  assert (forall A (f : A -> bool) l, (length (filter f l) <= length l)%nat) as F by (intros A f l; induction l as [|x l IH]; cbn; [lia|]; destruct (f x); cbn; lia).
  pose proof (F _ (fun h : handle (list Z) => (hid h =? k) && match hst h with Gone => false | _ => true end) (handles cf')).
  pose proof (F _ (fun p : option (ipc (list Z)) => match p with Some (SetVal _ i j) => idx_to_offset i j =? k | _ => false end) (ithreads cf')). lia.
Qed.

Example C168_demo :
  quiet (run true 2 demo_before) /\ variables (run true 2 demo_before) [0%nat] [0] [5 * 2 ^ 64] /\ (forall e, In e demo_exprs -> sound true 0 [5 * 2 ^ 64] e) /\
  in_bounds true 2 (bdone demo_end) /\ bprogs demo_end = [PStop (Ok 4); PStop (Ok 8)] /\ bowned demo_end = [[2%nat]; [4%nat]] /\
  map (value [5 * 2 ^ 64]) demo_exprs = [10 * 2 ^ 64; 30 * 2 ^ 64].
Proof.
  split; [|split; [|split; [|split; [exact demo_bounds|split; [|split]; vm_compute; reflexivity]]]].
  - unfold quiet. replace (ithreads _) with (@repeat (option (ipc (list Z))) None 2) by (vm_compute; reflexivity). repeat constructor.
  - split.
    + intros m [<-|[]]. exists (Handle 0 [0; 5] (Held 0)). split; [vm_compute; reflexivity|discriminate].
    + intros [|i] Hi; [|cbn in Hi; lia]. exists [0; 5]. split; [repeat constructor; vm_compute; discriminate|]. split; [split; [|left]; discriminate|]. split; [vm_compute; reflexivity|].
      change (Nat.eqb (length [0; 5]) 1) with false. cbn [andb]. exists 0%nat, (Handle 0 [0; 5] (Held 0)). split; [left; reflexivity|]. repeat split; try (vm_compute; reflexivity). discriminate.
  - unfold sound. intros e [<-|[<-|[]]]; cbn [everywhere_with value_with nth length fit_op right_op outcome meaning]; unfold add_exact; repeat split; auto; try (unfold std_ty; cbn; auto); try lia; try (vm_compute; reflexivity).
Qed.

(** The same turns, and thread 0 from then on: a schedule as [C168_finishes_partial] asks for. *)
Example C168_finishes_demo : let f k := nth k demo_turns (0, 0)%nat in
  let bc k := bexec true 2 [0%nat] (map f (seq 0 k)) (bstart true 0 demo_before [0] demo_exprs) in
  (forall k, in_bounds true 2 (bdone (bc k))) /\
  (forall t k, (t < 2)%nat -> finished (bc k) t \/ exists k', (k <= k')%nat /\ fst (f k') = t /\ bdone (bc (S k')) <> bdone (bc k')).
Proof.
  intros f bc.
  assert (forall k, bc (S k) = bstep true 2 [0%nat] (bc k) (f k)) as SS. { intros k. apply (after_S true 2 [0%nat] f). }
  assert (bc (length demo_turns) = demo_end) as EE. { unfold bc, demo_end. f_equal. }
  assert (forall d, bc (d + length demo_turns)%nat = demo_end) as ST.
  { induction d as [|d IH]; [exact EE|]. cbn [Nat.add]. rewrite SS, IH. unfold f. rewrite nth_overflow by lia. vm_compute. reflexivity. }
  assert (forall a b, exists l, bdone (bc (b + a)%nat) = bdone (bc a) ++ l) as PX.
  { intros a. induction b as [|b (l & E)]; [exists []; rewrite app_nil_r; auto|]. cbn [Nat.add]. rewrite SS.
    destruct (bstep_done true 2 [0%nat] (bc (b + a)%nat) (f (b + a)%nat)) as (l' & E'). exists (l ++ l'). rewrite E', E, app_assoc. reflexivity. }
  split.
  - intros k. destruct (PX k (length demo_turns)) as (l & E). apply (fine_prefix true 2 _ l). rewrite <- E. rewrite Nat.add_comm, ST. exact demo_bounds.
  - assert (forall t, (t < 2)%nat -> finished demo_end t) as FE.
    { intros t Ht. unfold finished. destruct C168_demo as (_ & _ & _ & _ & -> & _). destruct t as [|[|t]]; [| |lia]; (eexists; reflexivity). }
    (* the last steps of the two threads *)
    assert (forall t last, In (t, last) [(0, 19); (1, 61)]%nat -> fst (f last) = t /\ bdone (bc (S last)) <> bdone (bc last) /\
      forallb (fun j => match nth_error (bprogs (bc j)) t with Some (PStop _) => true | _ => false end) (seq (S last) (62 - last)) = true) as LS.
    { intros t last [[= <- <-]|[[= <- <-]|[]]]; (split; [vm_compute; reflexivity|split; [|vm_compute; reflexivity]]);
        intros E; apply (f_equal (@length _)) in E; vm_compute in E; discriminate E. }
    clearbody bc. intros t k Ht. assert (exists last, In (t, last) [(0, 19); (1, 61)]%nat) as (last & I) by (destruct t as [|[|t]]; [eexists; left; reflexivity|eexists; right; left; reflexivity|lia]).
    destruct (LS t last I) as (L1 & L2 & L3). destruct (Nat.le_gt_cases k last) as [Hk|Hk]; [right; exists last; auto|]. left.
    destruct (Nat.le_gt_cases k 62) as [Hl|Hl].
    + rewrite forallb_forall in L3. specialize (L3 k ltac:(apply in_seq; lia)). unfold finished. destruct (nth_error (bprogs (bc k)) t) as [[r| | | |]|]; try discriminate L3. eauto.
    + replace k with ((k - 62) + length demo_turns)%nat by (change (length demo_turns) with 62%nat; lia). rewrite ST. apply FE. exact Ht.
Qed.

(** An expression with a wrong difference: [4 - x] is two too large, with threads as without. *)
Example C168_wrong_difference_demo : let e := ExpVar OSub (Lit t_i32 4) 0 in
  sound true 0 [5 * 2 ^ 64] e /\ value [5 * 2 ^ 64] e = 4 - 5 * 2 ^ 64 /\ value_with outcome [5 * 2 ^ 64] e = 6 - 5 * 2 ^ 64.
Proof. cbn [sound everywhere_with value_with nth length fit_op]. split; [|split; reflexivity]. unfold sound. cbn. unfold std_ty. cbn. auto 10. Qed.
