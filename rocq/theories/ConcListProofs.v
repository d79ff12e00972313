(** Invariant of the shared list over all schedules. *)
From Coq Require Import List Bool PeanoNat Lia Permutation.
From Verif Require Import Base ConcListModel ConcListSpec.
Import ListNotations.

Lemma nth_error_upd {T} : forall (l : list T) i j v,
  nth_error (upd l i v) j =
  if Nat.eqb i j then (if Nat.ltb i (length l) then Some v else None) else nth_error l j.
Proof.
  induction l as [|x l IH]; intros i j v.
  - cbn. destruct i, j; cbn; try reflexivity. destruct (Nat.eqb i j); reflexivity.
  - destruct i, j; cbn; try reflexivity. rewrite IH.
    destruct (Nat.eqb i j); [|reflexivity].
    replace (S i <? S (length l)) with (i <? length l) by reflexivity. reflexivity.
Qed.

Lemma length_upd {T} : forall (l : list T) i v, length (upd l i v) = length l.
Proof. induction l; intros [|i] v; cbn; auto. Qed.

Lemma nth_error_lt {T} (l : list T) i a : nth_error l i = Some a -> i < length l.
Proof. intros H. apply nth_error_Some. rewrite H. discriminate. Qed.

Lemma nth_error_snoc {T} (l : list T) a i x :
  nth_error l i = Some x -> nth_error (l ++ [a]) i = Some x.
Proof. intros H. rewrite nth_error_app1; [exact H|]. eapply nth_error_lt; eauto. Qed.

Lemma nth_error_last {T} (l : list T) a : nth_error (l ++ [a]) (length l) = Some a.
Proof. rewrite nth_error_app2, Nat.sub_diag; reflexivity. Qed.

Section Proofs.
Context {A : Type}.
Implicit Types (m : mem A) (L : list nat) (vs : list A) (p : pc A) (c : call A).

Record linked m L vs : Prop := {
  lk_head : head m = hd_error L;
  lk_node : forall i a, nth_error L i = Some a ->
            exists v, nth_error (heap m) a = Some (Node v (nth_error L (S i))) /\ nth_error vs i = Some v;
  lk_len : length vs = length L;
  lk_nodup : NoDup L }.

Definition owned p : option (A * nat) :=
  match p with
  | PushHead v n | TailHead (ForPush v n) | TailNext (ForPush v n) _ _
  | TailLoad (ForPush v n) _ _ | PushCas v n _ _ | PushRetry v n _ _ | PushReload v n _ _ => Some (v, n)
  | _ => None
  end.

Definition asker_ok c (k : asker A) : Prop :=
  match k with ForPush v _ => c = Push v | ForLen => c = Len end.

Definition pcok (s : nat) L vs c p : Prop :=
  match p with
  | PushNew v => c = Push v
  | PushHead v n => c = Push v
  | TailHead k => asker_ok c k /\ (c <> Len -> L <> [])
  | TailNext k a len => asker_ok c k /\ 1 <= len /\ nth_error L (len - 1) = Some a
  | TailLoad k a len => asker_ok c k /\ 1 <= len < length L /\ nth_error L (len - 1) = Some a
  | PushCas v n a len | PushRetry v n a len =>
      c = Push v /\ s <= len /\ exists k, nth_error L k = Some a /\ 1 <= len <= S k
  | PushReload v n a len =>
      c = Push v /\ s <= len /\ exists k, nth_error L k = Some a /\ 1 <= len <= S k /\ S k < length L
  | EmptyHead => c = IsEmpty
  | GetHead i => c = Get i
  | GetNext i a k => c = Get i /\ k <= i /\ nth_error L (i - k) = Some a
  | GetLoad i a k => c = Get i /\ S k <= i /\ nth_error L (i - S k) = Some a /\ i - k < length L
  | IterAt None acc => c = IterAll /\ acc = []
  | IterAt (Some a) acc => c = IterAll /\ exists j, nth_error L j = Some a /\ acc = firstn (S j) vs
  | Crash => False
  end.

Lemma start_ok s L vs c : pcok s L vs c (start c).
Proof. destruct c; cbn; tauto. Qed.

Lemma linked_get m L vs i a : linked m L vs -> nth_error L i = Some a ->
  exists v, nth_error (heap m) a = Some (Node v (nth_error L (S i))) /\ nth_error vs i = Some v.
Proof. intros [_ H _ _]. apply H. Qed.

Lemma firstn_snoc (vs : list A) j v : nth_error vs j = Some v -> firstn (S j) vs = firstn j vs ++ [v].
Proof.
  revert j; induction vs as [|x vs IH]; intros [|j]; cbn; try discriminate.
  - intros [= ->]. reflexivity.
  - intros H. f_equal. apply IH. exact H.
Qed.

Lemma none_len {T} (l : list T) i a : nth_error l i = Some a -> nth_error l (S i) = None -> length l = S i.
Proof. intros H1 H2. apply nth_error_lt in H1. apply nth_error_None in H2. lia. Qed.

Definition is_push c := match c with Push _ => True | _ => False end.

Lemma hd_none {T} (l : list T) : hd_error l = None -> l = [].
Proof. destruct l; [reflexivity|discriminate]. Qed.
Lemma hd_some {T} (l : list T) a : hd_error l = Some a -> nth_error l 0 = Some a.
Proof. destruct l; cbn; auto. Qed.

(** One step inside a call. *)
Lemma micro_ok s m L vs c p :
  linked m L vs -> pcok s L vs c p -> s <= length vs ->
  (forall v n, owned p = Some (v, n) -> nth_error (heap m) n = Some (Node v None) /\ ~ In n L) ->
  match micro p m with
  | (inl p', m') =>
      linked m' L vs /\ pcok s L vs c p' /\
      ((m' = m /\ owned p' = owned p) \/
       (exists v, heap m' = heap m ++ [Node v None] /\ owned p' = Some (v, length (heap m))))
  | (inr r, m') =>
      (exists v n a, c = Push v /\ r = RNat a /\ owned p = Some (v, n) /\
         linked m' (L ++ [n]) (vs ++ [v]) /\ s + 1 <= a <= length vs + 1 /\
         (forall b, ~ In b L -> nth_error (heap m') b = nth_error (heap m) b)) \/
      (m' = m /\ ~ is_push c /\ owned p = None /\ forall l0, answer_ok l0 vs c r)
  end.
Proof.
  intros HL HP Hs HO.
  destruct p as [v|v n|k|k a len|k a len|v n a len|v n a len|v n a len| |i|i a k|i a k|loc acc|].
  - cbn in *. subst c. split; [|split; [reflexivity|right; eexists; split; reflexivity]].
    destruct HL as [H1 H2 H3 H4]. constructor; cbn; auto.
    intros i a E. destruct (H2 i a E) as [x [E1 E2]]. exists x. split; [|exact E2].
    apply nth_error_snoc, E1.
  - cbn in *. destruct (head m) eqn:Eh.
    + split; [exact HL|]. split; [|left; auto]. split; [exact HP|].
      intros _ ->. rewrite (lk_head _ _ _ HL) in Eh. discriminate.
    + left. exists v, n, 1. destruct (HO v n eq_refl) as [Hn Hn'].
      rewrite (lk_head _ _ _ HL) in Eh. apply hd_none in Eh. subst L.
      assert (vs = []) by (pose proof (lk_len _ _ _ HL) as E; destruct vs; [reflexivity|discriminate]).
      subst vs. cbn in *. repeat (split; [first [assumption|reflexivity]|]).
      split; [|split; [lia|reflexivity]].
      constructor; cbn; auto.
      * intros [|i] b E; cbn in *; [|destruct i; discriminate]. injection E as <-. exists v. auto.
      * constructor; [cbn; tauto|constructor].
  - cbn in *. destruct HP as [Hk HP]. destruct (head m) as [a|] eqn:Eh.
    + split; [exact HL|]. split; [|left; destruct k; auto].
      split; [exact Hk|]. split; [lia|]. apply hd_some. rewrite <- (lk_head _ _ _ HL). exact Eh.
    + rewrite (lk_head _ _ _ HL) in Eh. apply hd_none in Eh.
      destruct k as [v n|]; cbn in Hk; subst c.
      * split; [exact HL|]. cbn. elim HP; [discriminate|exact Eh].
      * right. repeat split; auto. intros l0. cbn. rewrite (lk_len _ _ _ HL), Eh. reflexivity.
  - cbn in *. destruct HP as (Hk & H1 & Ha). destruct (linked_get _ _ _ _ _ HL Ha) as (x & Ex & Ev).
    unfold load_next. rewrite Ex. cbn [nnext].
    destruct (nth_error L (S (len - 1))) as [b|] eqn:En.
    + split; [exact HL|]. split; [|left; destruct k; auto].
      apply nth_error_lt in En. cbn. repeat split; auto; lia.
    + pose proof (none_len _ _ _ Ha En) as El. destruct k as [v n|]; cbn in Hk; subst c; cbn.
      * split; [exact HL|]. split; [|left; auto]. split; [reflexivity|].
        rewrite (lk_len _ _ _ HL) in Hs. split; [lia|]. exists (len - 1). split; [exact Ha|lia].
      * right. repeat split; auto. intros l0. cbn. rewrite (lk_len _ _ _ HL). lia.
  - cbn in *. destruct HP as (Hk & H1 & Ha). destruct (linked_get _ _ _ _ _ HL Ha) as (x & Ex & Ev).
    unfold load_next. rewrite Ex. cbn [nnext].
    destruct (nth_error L (S (len - 1))) as [b|] eqn:En.
    + split; [exact HL|]. split; [|left; destruct k; auto].
      cbn. repeat split; auto; [lia|]. replace (len + 1 - 1) with (S (len - 1)) by lia. exact En.
    + apply nth_error_None in En. lia.
  - cbn in *. destruct HP as (Hk & H1 & k & Ha & H2). destruct (linked_get _ _ _ _ _ HL Ha) as (x & Ex & Ev).
    unfold load_next. rewrite Ex. cbn [nnext].
    destruct (nth_error L (S k)) as [b|] eqn:En.
    + split; [exact HL|]. split; [|left; auto]. repeat split; auto. exists k. auto.
    + pose proof (none_len _ _ _ Ha En) as El. left. destruct (HO v n eq_refl) as [Hn Hn'].
      exists v, n, (len + 1). repeat (split; [first [assumption|reflexivity]|]).
      rewrite (lk_len _ _ _ HL). split; [|split; [lia|]].
      * unfold store_next. rewrite Ex. cbn [nval].
        assert (Hna : n <> a) by (intros ->; apply Hn'; eapply nth_error_In; exact Ha).
        destruct HL as [K1 K2 K3 K4]. constructor; cbn [head heap].
        -- rewrite K1. destruct L; [destruct k; discriminate|reflexivity].
        -- intros i b E. rewrite nth_error_upd.
           destruct (Nat.lt_ge_cases i (length L)) as [Hi|Hi].
           ++ rewrite nth_error_app1 in E by exact Hi. destruct (K2 i b E) as (y & Ey & Eyv).
              destruct (Nat.eqb_spec a b) as [<-|Hab].
              ** assert (i = k).
                 { eapply (proj1 (NoDup_nth_error L) K4 i k Hi). rewrite E. symmetry. exact Ha. }
                 subst i. rewrite (proj2 (Nat.ltb_lt _ _)) by (eapply nth_error_lt; exact Ex).
                 exists x. replace (S k) with (length L) by exact El. rewrite nth_error_last.
                 split; [reflexivity|]. apply nth_error_snoc, Ev.
              ** exists y. split; [|apply nth_error_snoc; exact Eyv]. rewrite Ey. do 2 f_equal.
                 destruct (Nat.eq_dec i k) as [->|Hik]; [elim Hab; congruence|].
                 rewrite nth_error_app1; [reflexivity|]. lia.
           ++ assert (i = length L).
              { apply nth_error_lt in E. rewrite app_length in E. cbn in E. lia. }
              subst i. rewrite nth_error_last in E. injection E as <-.
              destruct (Nat.eqb_spec a n) as [->|_]; [congruence|]. exists v. split.
              ** rewrite Hn. do 2 f_equal. symmetry. apply nth_error_None. rewrite app_length. cbn. lia.
              ** rewrite <- K3. apply nth_error_last.
        -- rewrite !app_length. cbn. lia.
        -- apply (Permutation_NoDup (l := n :: L)); [apply Permutation_cons_append|].
           constructor; assumption.
      * intros b Hb. unfold store_next. rewrite Ex. cbn. rewrite nth_error_upd.
        destruct (Nat.eqb_spec a b) as [<-|_]; [|reflexivity]. elim Hb. eapply nth_error_In; exact Ha.
  - cbn in *. destruct HP as (Hk & H1 & k & Ha & H2). destruct (linked_get _ _ _ _ _ HL Ha) as (x & Ex & Ev).
    unfold load_next. rewrite Ex. cbn [nnext].
    destruct (nth_error L (S k)) as [b|] eqn:En; (split; [exact HL|]; split; [|left; auto]).
    + split; [exact Hk|]. split; [exact H1|]. exists k. apply nth_error_lt in En. auto.
    + split; [exact Hk|]. split; [exact H1|]. exists k. auto.
  - cbn in *. destruct HP as (Hk & H1 & k & Ha & H2 & H3). destruct (linked_get _ _ _ _ _ HL Ha) as (x & Ex & Ev).
    unfold load_next. rewrite Ex. cbn [nnext].
    destruct (nth_error L (S k)) as [b|] eqn:En.
    + split; [exact HL|]. split; [|left; auto]. split; [exact Hk|]. split; [exact H1|].
      exists (S k). split; [exact En|lia].
    + apply nth_error_None in En. lia.
  - cbn in *. subst c. right. repeat split; auto.
    + intros E. rewrite (lk_head _ _ _ HL) in E. destruct L; [|discriminate].
      pose proof (lk_len _ _ _ HL) as E'. destruct vs; [reflexivity|discriminate].
    + intros ->. rewrite (lk_head _ _ _ HL). pose proof (lk_len _ _ _ HL) as E'.
      destruct L; [reflexivity|discriminate].
  - cbn in *. subst c. destruct (head m) as [a|] eqn:Eh; rewrite (lk_head _ _ _ HL) in Eh.
    + split; [exact HL|]. split; [|left; auto]. cbn. rewrite Nat.sub_diag. apply hd_some in Eh. auto.
    + apply hd_none in Eh. right. repeat split; auto. intros l0. cbn.
      pose proof (lk_len _ _ _ HL) as E'. subst L. destruct vs; [|discriminate]. destruct i; reflexivity.
  - cbn in HP. destruct HP as (-> & Hk & Ha). destruct (linked_get _ _ _ _ _ HL Ha) as (x & Ex & Ev).
    destruct k as [|k]; cbn.
    + rewrite Ex. right. repeat split; auto. intros l0. cbn. rewrite Nat.sub_0_r in Ev. auto.
    + unfold load_next. rewrite Ex. cbn [nnext].
      destruct (nth_error L (S (i - S k))) as [b|] eqn:En.
      * split; [exact HL|]. split; [|left; auto]. cbn. apply nth_error_lt in En. repeat split; auto. lia.
      * right. repeat split; auto. intros l0. cbn. pose proof (none_len _ _ _ Ha En).
        symmetry. apply nth_error_None. rewrite (lk_len _ _ _ HL). lia.
  - cbn in *. destruct HP as (-> & Hk & Ha & Hl). destruct (linked_get _ _ _ _ _ HL Ha) as (x & Ex & Ev).
    unfold load_next. rewrite Ex. cbn [nnext].
    destruct (nth_error L (S (i - S k))) as [b|] eqn:En.
    + split; [exact HL|]. split; [|left; auto]. cbn. repeat split; [lia|].
      replace (i - k) with (S (i - S k)) by lia. exact En.
    + apply nth_error_None in En. lia.
  - cbn [micro]. destruct loc as [a|]; cbn in HP.
    + destruct HP as (-> & j & Ha & ->). destruct (linked_get _ _ _ _ _ HL Ha) as (x & Ex & Ev).
      unfold load_loc, load_next. rewrite Ex. cbn [nnext].
      destruct (nth_error L (S j)) as [b|] eqn:En.
      * destruct (linked_get _ _ _ _ _ HL En) as (y & Ey & Eyv). rewrite Ey.
        split; [exact HL|]. split; [|left; auto]. cbn [pcok]. split; [reflexivity|].
        exists (S j). split; [exact En|]. cbn [nval]. symmetry. apply firstn_snoc. exact Eyv.
      * right. repeat split; auto. intros l0. unfold answer_ok. pose proof (none_len _ _ _ Ha En) as E.
        change (firstn (S j) vs = vs).
        rewrite <- E, <- (lk_len _ _ _ HL). apply firstn_all.
    + destruct HP as (-> & ->). unfold load_loc.
      destruct (head m) as [b|] eqn:Eh; rewrite (lk_head _ _ _ HL) in Eh.
      * apply hd_some in Eh. destruct (linked_get _ _ _ _ _ HL Eh) as (y & Ey & Eyv). rewrite Ey.
        split; [exact HL|]. split; [|left; auto]. cbn [pcok]. split; [reflexivity|].
        exists 0. split; [exact Eh|]. cbn [nval app]. destruct vs; [discriminate|].
        cbn in Eyv. injection Eyv as ->. reflexivity.
      * apply hd_none in Eh. right. repeat split; auto. intros l0. cbn.
        pose proof (lk_len _ _ _ HL) as E'. subst L. destruct vs; [reflexivity|discriminate].
  - cbn in HP. destruct HP.
Qed.

Lemma pcok_grow s L vs c p n v : length vs = length L -> pcok s L vs c p -> pcok s (L ++ [n]) (vs ++ [v]) c p.
Proof.
  intros HL.
  destruct p as [?|? ?|k|k a len|k a len|? ? a len|? ? a len|? ? a len| |i|i a k|i a k|[a|] acc|]; cbn -[firstn]; auto;
    intros H; rewrite ?app_length; cbn [length];
    repeat match goal with H : _ /\ _ |- _ => destruct H | H : exists _, _ |- _ => destruct H end;
    repeat match goal with
           | |- _ /\ _ => split
           | |- exists _, _ => eexists
           | |- nth_error (_ ++ _) _ = Some _ => eapply nth_error_snoc; eassumption
           end; try assumption; try lia.
  - intros _ E. destruct L; discriminate.
  - subst acc. rewrite firstn_app.
    replace (S x - length vs) with 0 by (apply nth_error_lt in H0; lia). cbn [firstn]. rewrite app_nil_r. reflexivity.
Qed.

(** Configurations. *)
Record inv (cf : conf A) L : Prop := {
  iv_linked : linked (memory cf) L (pushed (history cf));
  iv_pc : forall t th c p, nth_error (threads cf) t = Some th -> cur th = Some (c, p) ->
          exists h0, inside h0 (history cf) t c /\ pcok (length (pushed h0)) L (pushed (history cf)) c p;
  iv_owned : forall t th c p v n, nth_error (threads cf) t = Some th -> cur th = Some (c, p) ->
          owned p = Some (v, n) ->
          nth_error (heap (memory cf)) n = Some (Node v None) /\ ~ In n L /\
          forall t' th' c' p' v', nth_error (threads cf) t' = Some th' -> cur th' = Some (c', p') ->
            owned p' = Some (v', n) -> t' = t;
  iv_hist : history_ok (history cf) }.

Lemma pushed_app (h1 h2 : list (event A)) : pushed (h1 ++ h2) = pushed h1 ++ pushed h2.
Proof. unfold pushed. apply flat_map_app. Qed.

Lemma inside_len h0 h1 t c : inside h0 h1 t c -> length (pushed h0) <= length (pushed h1 : list A).
Proof. intros (h & -> & _). rewrite pushed_app, app_length. lia. Qed.

Lemma inside_snoc h0 h1 t c e : inside h0 h1 t c -> thread_of (A := A) e <> t -> inside h0 (h1 ++ [e]) t c.
Proof.
  intros (h & -> & H) He. exists (h ++ [e]). split; [rewrite <- app_assoc; reflexivity|].
  apply Forall_app. auto.
Qed.

Lemma snoc_split {T} (h h1 h2 : list T) e x : h ++ [e] = h1 ++ x :: h2 ->
  (h2 = [] /\ h1 = h /\ x = e) \/ (exists h3, h2 = h3 ++ [e] /\ h = h1 ++ x :: h3).
Proof.
  intros E. destruct h2 as [|y h2] using rev_ind.
  - left. apply app_inj_tail in E. destruct E as [-> ->]. auto.
  - clear IHh2. right. exists h2.
    rewrite app_comm_cons, app_assoc in E. apply app_inj_tail in E. destruct E as [-> ->]. auto.
Qed.

Lemma history_ok_inv h t c : history_ok h -> history_ok (A := A) (h ++ [Inv t c]).
Proof.
  intros H h1 t' c' r h2 E. destruct (snoc_split _ _ _ _ _ E) as [(_ & _ & E')|(h3 & _ & E')]; [discriminate|].
  exact (H _ _ _ _ _ E').
Qed.

Lemma history_ok_ret h t c r h0 : history_ok h -> inside h0 h t c ->
  answer_ok (pushed h0) (pushed h) c r -> history_ok (A := A) (h ++ [Ret t c r]).
Proof.
  intros H Hi Ha h1 t' c' r' h2 E. destruct (snoc_split _ _ _ _ _ E) as [(_ & -> & E')|(h3 & _ & E')].
  - injection E' as -> -> ->. exists h0. auto.
  - exact (H _ _ _ _ _ E').
Qed.

Lemma inv_initial progs : inv (initial progs) [].
Proof.
  constructor.
  - constructor; cbn; auto. + intros [|i]; discriminate. + constructor.
  - cbn. intros t th c p E. rewrite nth_error_map in E. destruct (nth_error progs t); [|discriminate].
    injection E as <-. discriminate.
  - cbn. intros t th c p v n E. rewrite nth_error_map in E. destruct (nth_error progs t); [|discriminate].
    injection E as <-. discriminate.
  - intros h1 t c r h2 E. destruct h1; discriminate.
Qed.

Lemma nth_upd_cases {T} (l : list T) i v j x : nth_error (upd l i v) j = Some x ->
  (j = i /\ x = v) \/ (j <> i /\ nth_error l j = Some x).
Proof.
  rewrite nth_error_upd. destruct (Nat.eqb_spec i j) as [<-|H].
  - destruct (i <? length l); [|discriminate]. intros [= <-]. auto.
  - intros E. right. auto.
Qed.

Lemma pushed_snoc_inv h t c : pushed (h ++ [Inv t c]) = pushed h :> list A.
Proof. rewrite pushed_app. cbn. apply app_nil_r. Qed.

Lemma pushed_snoc_other h t c r : ~ is_push c -> pushed (h ++ [Ret t c r]) = pushed h :> list A.
Proof. intros H. rewrite pushed_app. destruct c; cbn in *; try tauto; apply app_nil_r. Qed.

(** Every step keeps the invariant, and the list only grows at its end. *)
Lemma inv_step cf t L : inv cf L -> exists L', inv (conf_step cf t) (L ++ L').
Proof.
  intros HI. unfold conf_step.
  destruct (nth_error (threads cf) t) as [th|] eqn:Et; [|exists []; rewrite app_nil_r; exact HI].
  unfold thread_step. destruct (cur th) as [[c p]|] eqn:Ec.
  2: { destruct (todo th) as [|c cs] eqn:Etd; exists []; rewrite app_nil_r.
    - rewrite app_nil_r. assert (upd (threads cf) t th = threads cf) as ->.
      { clear -Et. revert t Et. induction (threads cf); intros [|t] E; cbn in *; try discriminate.
        - congruence. - f_equal. apply IHl, E. }
      destruct cf; exact HI.
    - destruct HI as [H1 H2 H3 H4]. constructor; cbn [memory threads history].
      + rewrite pushed_snoc_inv. exact H1.
      + intros t' th' c' p' E Ec'. apply nth_upd_cases in E. destruct E as [[-> ->]|[Hne E]].
        * cbn in Ec'. injection Ec' as <- <-. exists (history cf). split; [|apply start_ok].
          exists []. auto.
        * destruct (H2 _ _ _ _ E Ec') as (h0 & Hi & Hp). exists h0. rewrite pushed_snoc_inv.
          split; [|exact Hp]. apply inside_snoc; [exact Hi|cbn; auto].
      + intros t' th' c' p' v n E Ec' Eo. apply nth_upd_cases in E. destruct E as [[-> ->]|[Hne E]].
        * cbn in Ec'. injection Ec' as <- <-. destruct c; discriminate.
        * destruct (H3 _ _ _ _ _ _ E Ec' Eo) as (K1 & K2 & K3). split; [exact K1|]. split; [exact K2|].
          intros t2 th2 c2 p2 v2 E2 Ec2 Eo2. apply nth_upd_cases in E2. destruct E2 as [[-> ->]|[Hne2 E2]].
          -- cbn in Ec2. injection Ec2 as <- <-. destruct c; discriminate.
          -- eapply K3; eauto.
      + apply history_ok_inv, H4. }
  destruct HI as [H1 H2 H3 H4]. destruct (H2 _ _ _ _ Et Ec) as (h0 & Hin & Hp).
  pose proof (micro_ok (length (pushed h0)) (memory cf) L (pushed (history cf)) c p H1 Hp
                (inside_len _ _ _ _ Hin)) as HM.
  assert (HO : forall v n, owned p = Some (v, n) ->
               nth_error (heap (memory cf)) n = Some (Node v None) /\ ~ In n L)
    by (intros v n E; destruct (H3 _ _ _ _ _ _ Et Ec E) as (K1 & K2 & _); auto).
  specialize (HM HO). destruct (micro p (memory cf)) as [[p'|r] m'].
  - exists []. rewrite !app_nil_r. destruct HM as (M1 & M2 & M3). constructor; cbn [memory threads history].
    + exact M1.
    + intros t' th' c' q E Ec'. apply nth_upd_cases in E. destruct E as [[-> ->]|[Hne E]].
      * cbn in Ec'. injection Ec' as <- <-. exists h0. auto.
      * exact (H2 _ _ _ _ E Ec').
    + assert (HF : forall n x, nth_error (heap (memory cf)) n = Some x -> nth_error (heap m') n = Some x).
      { intros n x E. destruct M3 as [[-> _]|(v & -> & _)]; [exact E|]. apply nth_error_snoc, E. }
      intros t' th' c' q v n E Ec' Eo. apply nth_upd_cases in E. destruct E as [[-> ->]|[Hne E]].
      * cbn in Ec'. injection Ec' as <- <-. destruct M3 as [[-> Eq]|(v' & Eh & Eq)].
        -- rewrite Eq in Eo. destruct (H3 _ _ _ _ _ _ Et Ec Eo) as (K1 & K2 & K3).
           split; [exact K1|]. split; [exact K2|].
           intros t2 th2 c2 p2 v2 E2 Ec2 Eo2. apply nth_upd_cases in E2. destruct E2 as [[-> ->]|[Hne2 E2]]; [reflexivity|].
           eapply K3; eauto.
        -- rewrite Eo in Eq. injection Eq as -> ->. split; [rewrite Eh; apply nth_error_last|]. split.
           ++ intros Hn. apply In_nth_error in Hn. destruct Hn as [i Hi].
              destruct (linked_get _ _ _ _ _ H1 Hi) as (x & Ex & _). apply nth_error_lt in Ex. lia.
           ++ intros t2 th2 c2 p2 v2 E2 Ec2 Eo2. apply nth_upd_cases in E2. destruct E2 as [[-> ->]|[Hne2 E2]]; [reflexivity|].
              destruct (H3 _ _ _ _ _ _ E2 Ec2 Eo2) as (K1 & _). apply nth_error_lt in K1. lia.
      * destruct (H3 _ _ _ _ _ _ E Ec' Eo) as (K1 & K2 & K3). split; [apply HF, K1|]. split; [exact K2|].
        intros t2 th2 c2 p2 v2 E2 Ec2 Eo2. apply nth_upd_cases in E2. destruct E2 as [[-> ->]|[Hne2 E2]].
        -- cbn in Ec2. injection Ec2 as <- <-. destruct M3 as [[_ Eq]|(v' & Eh & Eq)].
           ++ rewrite Eq in Eo2. eapply K3; eauto.
           ++ rewrite Eo2 in Eq. injection Eq as -> ->. apply nth_error_lt in K1. lia.
        -- eapply K3; eauto.
    + exact H4.
  - destruct HM as [(v & n & a & -> & -> & Eo & M1 & M2 & M3)|(-> & M1 & Eo & M2)].
    + exists [n]. destruct (H3 _ _ _ _ _ _ Et Ec Eo) as (_ & _ & K3).
      assert (EP : pushed (history cf ++ [Ret t (Push v) (RNat a)]) = pushed (history cf) ++ [v])
        by (rewrite pushed_app; reflexivity).
      constructor; cbn [memory threads history].
      * rewrite EP. exact M1.
      * intros t' th' c' q E Ec'. apply nth_upd_cases in E. destruct E as [[-> ->]|[Hne E]]; [discriminate|].
        destruct (H2 _ _ _ _ E Ec') as (h1 & Hi & Hq). exists h1. split.
        -- apply inside_snoc; [exact Hi|cbn; auto].
        -- rewrite EP. apply pcok_grow; [apply (lk_len _ _ _ H1)|exact Hq].
      * intros t' th' c' q w b E Ec' Eo'. apply nth_upd_cases in E. destruct E as [[-> ->]|[Hne E]]; [discriminate|].
        destruct (H3 _ _ _ _ _ _ E Ec' Eo') as (J1 & J2 & J3). split; [rewrite M3; assumption|]. split.
        -- rewrite in_app_iff. intros [Hb|[Hb|[]]]; [auto|]. subst b. elim Hne. eapply K3; eauto.
        -- intros t2 th2 c2 p2 v2 E2 Ec2 Eo2. apply nth_upd_cases in E2. destruct E2 as [[-> ->]|[Hne2 E2]]; [discriminate|].
           eapply J3; eauto.
      * eapply history_ok_ret; [exact H4|exact Hin|]. cbn. exact M2.
    + exists []. rewrite app_nil_r. constructor; cbn [memory threads history].
      * rewrite pushed_snoc_other by exact M1. exact H1.
      * intros t' th' c' q E Ec'. apply nth_upd_cases in E. destruct E as [[-> ->]|[Hne E]]; [discriminate|].
        destruct (H2 _ _ _ _ E Ec') as (h1 & Hi & Hq). exists h1. split.
        -- apply inside_snoc; [exact Hi|cbn; auto].
        -- rewrite pushed_snoc_other by exact M1. exact Hq.
      * intros t' th' c' q w b E Ec' Eo'. apply nth_upd_cases in E. destruct E as [[-> ->]|[Hne E]]; [discriminate|].
        destruct (H3 _ _ _ _ _ _ E Ec' Eo') as (J1 & J2 & J3). split; [exact J1|]. split; [exact J2|].
        intros t2 th2 c2 p2 v2 E2 Ec2 Eo2. apply nth_upd_cases in E2. destruct E2 as [[-> ->]|[Hne2 E2]]; [discriminate|].
        eapply J3; eauto.
      * eapply history_ok_ret; [exact H4|exact Hin|apply M2].
Qed.

Lemma inv_exec sched : forall cf L, inv cf L -> exists L', inv (exec sched cf) (L ++ L').
Proof.
  induction sched as [|t sched IH]; intros cf L H.
  - exists []. rewrite app_nil_r. exact H.
  - cbn. destruct (inv_step cf t L H) as [L1 H1]. destruct (IH _ _ H1) as [L2 H2].
    exists (L1 ++ L2). rewrite app_assoc. exact H2.
Qed.

Lemma reachable progs sched : exists L, inv (exec sched (initial (A := A) progs)) L.
Proof. destruct (inv_exec sched _ _ (inv_initial progs)) as [L H]. exists L. exact H. Qed.

(** The pointers spell out the contents. *)
Lemma walk_linked m L vs : linked m L vs -> forall k f, k <= length L -> length L - k <= f ->
  walk (heap m) f (nth_error L k) = Some (skipn k vs).
Proof.
  intros HL k f. revert k. induction f as [|f IH]; intros k Hk Hf.
  - assert (k = length L) by lia. subst k. rewrite (proj2 (nth_error_None L (length L))) by lia. cbn.
    rewrite <- (lk_len _ _ _ HL), skipn_all. reflexivity.
  - destruct (nth_error L k) as [a|] eqn:E.
    + destruct (linked_get _ _ _ _ _ HL E) as (v & Ev & Evs). cbn. rewrite Ev. cbn [nnext nval].
      apply nth_error_lt in E. rewrite IH by lia. cbn [option_map]. f_equal.
      clear -Evs. revert vs Evs. induction k; intros [|x vs] E; cbn in *; try discriminate.
      * congruence. * apply IHk. exact E.
    + apply nth_error_None in E. cbn. rewrite skipn_all2; [reflexivity|]. rewrite (lk_len _ _ _ HL). lia.
Qed.

Lemma contents_linked m L vs : linked m L vs -> contents m = Some vs.
Proof.
  intros HL. unfold contents. rewrite (lk_head _ _ _ HL).
  assert (hd_error L = nth_error L 0) as -> by (destruct L; reflexivity).
  rewrite (walk_linked m L vs HL 0); [reflexivity|lia|].
  rewrite Nat.sub_0_r, <- (seq_length (length (heap m)) 0).
  apply NoDup_incl_length; [apply (lk_nodup _ _ _ HL)|].
  intros a Ha. apply In_nth_error in Ha. destruct Ha as [i Hi].
  destruct (linked_get _ _ _ _ _ HL Hi) as (v & Ev & _). apply nth_error_lt in Ev. apply in_seq. lia.
Qed.

(** The history only grows, thread by thread. *)
Lemma history_grows sched : forall cf : conf A, exists h, history (exec sched cf) = history cf ++ h.
Proof.
  induction sched as [|t sched IH]; intros cf.
  - exists []. symmetry. apply app_nil_r.
  - change (exec (t :: sched) cf) with (exec sched (conf_step cf t)).
    destruct (IH (conf_step cf t)) as [h Hh]. rewrite Hh. unfold conf_step.
    destruct (nth_error (threads cf) t) as [th|]; [|exists h; reflexivity].
    destruct (thread_step t th (memory cf)) as [[th' m'] es]. cbn. exists (es ++ h). rewrite app_assoc. reflexivity.
Qed.

Lemma no_crash progs sched t th c p :
  nth_error (threads (exec sched (initial (A := A) progs))) t = Some th -> cur th = Some (c, p) -> p <> Crash.
Proof.
  intros E Ec. destruct (reachable progs sched) as [L HI].
  destruct (iv_pc _ _ HI _ _ _ _ E Ec) as (h0 & _ & Hp). intros ->. exact Hp.
Qed.

End Proofs.
