(** The programs of ConcArithModel.v, run alone, are the functions of BigIntModel.v. *)
From Coq Require Import ZArith List Bool.
From Verif Require Import Base BitSliceModel ElementModel BitwiseModel InternModel BigIntModel BigIntRun BigIntExprModel ConcArithModel.
Import ListNotations.
Local Open Scope Z_scope.

Section Same.
Context (dbg : bool).
Definition same {A} (p : prog A) (m : M A) : Prop := forall st, alone dbg p st = m st.

Lemma same_bind {A B} (p : prog A) (m : M A) (g : A -> prog B) (h : A -> M B) :
  same p m -> (forall a, same (g a) (h a)) -> same (pbind p g) (mbind m h).
Proof.
  intros Hp Hg st. unfold mbind. rewrite <- Hp. clear Hp m. revert st. induction p as [r|k f IH|l f IH|k p IH|k p IH]; intros st; cbn [pbind alone].
  - destruct r; cbn [alone lift bind]; auto. unfold lift. cbn [bind]. apply Hg.
  - destruct (intern_get st k); cbn [bind]; auto.
  - unfold mbind. destruct (intern_add list_eqb dbg l st) as [[k st']| |]; cbn [bind]; auto.
  - destruct (intern_incr dbg k st); cbn [bind]; auto.
  - destruct (intern_decr k st); cbn [bind]; auto.
Qed.
Lemma same_ret {A} (a : A) : same (pret a) (ret a).
Proof. intros st. reflexivity. Qed.
Lemma same_stop {A} (r : res A) : same (PStop r) (lift r).
Proof. intros st. reflexivity. Qed.
Lemma same_ext {A} (p : prog A) (m m' : M A) : (forall st, m st = m' st) -> same p m -> same p m'.
Proof. intros E H st. rewrite H. apply E. Qed.
Lemma same_slice a : same (p_slice a) (reads (fun st => bi_slice st a)).
Proof.
  intros st. unfold p_slice, reads, bi_slice. destruct (is_inline a); cbn [alone]; [reflexivity|].
  destruct (intern_get st (to_offset a)); reflexivity.
Qed.
Lemma same_new_slice l neg : same (p_new_slice l neg) (new_slice dbg l neg).
Proof.
  unfold p_new_slice, new_slice. apply same_bind; [apply same_stop|]. intros l'.
  destruct (Nat.eqb (length l') 1 && (zget l' 0 <=? max_offset)); [apply same_stop|]. intros st. reflexivity.
Qed.
Lemma same_clone a : same (p_clone a) (bi_clone dbg a).
Proof. intros st. unfold p_clone, bi_clone. destruct (is_inline a); cbn [alone pret]; reflexivity. Qed.
Lemma same_drop a : same (p_drop a) (bi_drop a).
Proof. intros st. unfold p_drop, bi_drop. destruct (is_inline a); cbn [alone pret]; reflexivity. Qed.

Lemma same_cmp a b : same (p_cmp a b) (reads (fun st => bi_cmp st a b)).
Proof.
  unfold p_cmp, bi_cmp. destruct (a =? b); [intros st; reflexivity|]. destruct (is_negative a && is_positive b); [intros st; reflexivity|].
  destruct (is_positive a && is_negative b); [intros st; reflexivity|].
  eapply same_ext; [|apply same_bind; [apply same_slice|intros la; apply same_bind; [apply same_slice|intros lb; apply same_ret]]].
  intros st. unfold mbind, reads, ret. destruct (bi_slice st a); cbn [bind]; auto. destruct (bi_slice st b); cbn [bind]; auto.
Qed.
Lemma same_from t v : same (p_from dbg t v) (bi_from dbg t v).
Proof. apply same_bind; [apply same_stop|]. intros l. apply same_new_slice. Qed.
Lemma same_try_from t a : same (p_try_from dbg t a) (bi_try_from dbg t a).
Proof.
  unfold p_try_from, bi_try_from.
  apply same_bind; [apply same_from|]. intros m. apply same_bind; [apply same_cmp|]. intros c. apply same_bind; [apply same_drop|]. intros _.
  assert (same (let% m := p_from dbg t (imin t) in let% c := p_cmp a m in let% _ := p_drop m in
    match c with Lt => pret (inr Below) | _ => let% l := p_slice a in let% o := PStop (arr_to_int dbg 64 t l) in pret (match o with Some v => inl v | None => inr Above end) end)
    (let! m := bi_from dbg t (imin t) in let! c := reads (fun st => bi_cmp st a m) in let! _ := bi_drop m in
    match c with Lt => ret (inr Below) | _ => let! l := reads (fun st => bi_slice st a) in let! o := lift (arr_to_int dbg 64 t l) in ret (match o with Some v => inl v | None => inr Above end) end)) as H.
  { apply same_bind; [apply same_from|]. intros m'. apply same_bind; [apply same_cmp|]. intros c'. apply same_bind; [apply same_drop|]. intros _.
    destruct c'; try apply same_ret; (apply same_bind; [apply same_slice|]; intros l; apply same_bind; [apply same_stop|]; intros o; apply same_ret). }
  destruct c; try apply same_ret; exact H.
Qed.
Lemma same_eq_i32 a v : same (p_eq_i32 dbg a v) (reads (fun st => bi_eq_int dbg t_i32 st a v)).
Proof.
  unfold p_eq_i32, bi_eq_int. change (isigned t_i32) with true. cbv iota. destruct (negb _); [intros st; reflexivity|].
  eapply same_ext; [|apply same_bind; [apply same_stop|]; intros m; apply same_bind; [apply same_slice|]; intros l;
    apply same_bind; [apply same_stop|]; intros ar; apply same_bind; [apply same_stop|]; intros ar'; apply same_ret].
  intros st. unfold mbind, reads, ret, lift. destruct (v =? imin t_i32); [destruct dbg|]; cbn [bind]; auto;
    destruct (bi_slice st a); cbn [bind]; auto; destruct (int_to_arr _ _ _ _); cbn [bind]; auto; destruct (shrink _); cbn [bind]; auto.
Qed.
Lemma same_cmp_int t a v : same (p_cmp_int dbg t a v) (bi_cmp_int dbg t a v).
Proof.
  apply same_bind; [apply same_from|]. intros b. apply same_bind; [apply same_cmp|]. intros c. apply same_bind; [apply same_drop|]. intros _. apply same_ret.
Qed.
Lemma same_shift_amount b : same (p_shift_amount dbg b) (shift_amount dbg b).
Proof. apply same_bind; [apply same_try_from|]. intros [n|s]; [apply same_ret|apply same_stop]. Qed.

Lemma same_operate o a b : same (p_operate dbg o a b) (operate dbg o a b).
Proof.
  eapply same_ext; [|apply same_bind; [apply same_slice|]; intros la; apply same_bind; [apply same_slice|]; intros lb;
    instantiate (1 := fun lb => _); cbv beta; instantiate (1 := match o with
      | OShl => let! n := shift_amount dbg b in let! out := lift (elem_shl 64 la n) in new_slice dbg out (is_negative a)
      | OShr => let! n := shift_amount dbg b in let! out := lift (elem_shr dbg 64 la n) in new_slice dbg out (is_negative a)
      | _ => let! (out, neg) := lift (limbs dbg o a b la lb) in new_slice dbg out neg end);
    destruct o; repeat first [apply same_new_slice|match goal with x : (list Z * bool)%type |- _ => destruct x end|apply same_bind; [first [apply same_stop|apply same_shift_amount]|]; intros ?]].
  intros st. unfold mbind, reads. 
  destruct o; cbn [operate limbs]; unfold bi_add, bi_sub, bi_mul, bi_div, bi_rem, bi_shl, bi_shr, bi_bitand, bi_bitor, bi_bitxor, bi_bitop, with_slices, mbind, reads, lift, ret;
    destruct (bi_slice st a) as [la| |]; cbn [bind]; auto; destruct (bi_slice st b) as [lb| |]; cbn [bind]; auto.
  - destruct (is_positive a), (is_positive b);
      repeat (match goal with |- context [bind ?x _] => lazymatch x with elem_add _ _ _ => destruct x | elem_sub _ _ _ => destruct x as [[? ?]| |] end end; cbn [bind]); auto.
  - destruct (is_positive a), (is_positive b);
      repeat (match goal with |- context [bind ?x _] => lazymatch x with elem_add _ _ _ => destruct x | elem_sub _ _ _ => destruct x as [[? ?]| |] end end; cbn [bind]); auto.
  - destruct (elem_mul 64 la lb); auto.
  - destruct (bit_div_long dbg 64 la lb) as [[? ?]| |]; auto.
  - destruct (bit_div_long dbg 64 la lb) as [[? ?]| |]; auto.
  - destruct (shift_amount dbg b st) as [[? ?]| |]; cbn [bind]; auto; destruct (elem_shl _ _ _); auto.
  - destruct (shift_amount dbg b st) as [[? ?]| |]; cbn [bind]; auto; destruct (elem_shr _ _ _ _); auto.
Qed.
Lemma same_by_val op op' a b : (forall a b, same (op a b) (op' a b)) -> same (p_by_val op a b) (by_val op' a b).
Proof.
  intros H. apply same_bind; [apply H|]. intros c. apply same_bind; [apply same_drop|]. intros _. apply same_bind; [apply same_drop|]. intros _. apply same_ret.
Qed.
Lemma same_op_int op op' t a v : (forall a b, same (op a b) (op' a b)) -> same (p_op_int dbg op t a v) (op_int dbg op' t a v).
Proof. intros H. apply same_bind; [apply same_from|]. intros b. apply same_by_val. exact H. Qed.
Lemma same_pow_loop fuel : forall self rhs out, same (p_pow_loop dbg fuel self rhs out) (bi_pow_loop dbg fuel self rhs out).
Proof.
  induction fuel as [|fuel IH]; intros self rhs out; cbn [p_pow_loop bi_pow_loop]; [intros st; reflexivity|].
  apply same_bind; [apply same_cmp_int|]. intros [ | | ]; try apply same_ret.
  apply same_bind; [apply same_clone|]. intros s. apply same_bind; [apply same_by_val; apply (same_operate OMul)|]. intros out'.
  apply same_bind; [apply same_op_int; apply (same_operate OSub)|]. intros rhs'. apply IH.
Qed.
Lemma same_pow fuel self rhs : same (p_pow dbg fuel self rhs) (bi_pow dbg fuel self rhs).
Proof.
  apply same_bind; [apply same_eq_i32|]. intros [|].
  - apply same_bind; [apply same_from|]. intros c. apply same_bind; [apply same_drop|]. intros _. apply same_bind; [apply same_drop|]. intros _. apply same_ret.
  - apply same_bind; [apply same_clone|]. intros c. apply same_bind; [apply same_pow_loop|]. intros [rhs' out].
    apply same_bind; [apply same_drop|]. intros _. apply same_bind; [apply same_drop|]. intros _. apply same_ret.
Qed.
Lemma same_eval fuel vars e : same (p_eval dbg fuel vars e) (eval dbg fuel vars e).
Proof.
  induction e as [t v|i|o i j|o e IH j|o i e IH|o e IHe f IHf|o e IH t v|e IHe f IHf|e IH]; cbn [p_eval eval].
  - apply same_from.
  - apply same_clone.
  - apply same_operate.
  - apply same_bind; [exact IH|]. intros a. apply same_bind; [apply same_operate|]. intros c. apply same_bind; [apply same_drop|]. intros _. apply same_ret.
  - apply same_bind; [exact IH|]. intros a. apply same_bind; [apply same_operate|]. intros c. apply same_bind; [apply same_drop|]. intros _. apply same_ret.
  - apply same_bind; [exact IHe|]. intros a. apply same_bind; [exact IHf|]. intros b. apply same_by_val, same_operate.
  - apply same_bind; [exact IH|]. intros a. apply same_op_int, same_operate.
  - apply same_bind; [exact IHe|]. intros a. apply same_bind; [exact IHf|]. intros b. apply same_pow.
  - apply same_bind; [exact IH|]. intros a. apply same_ret.
Qed.
End Same.
