(** A call on the shared list that is left to run alone returns. *)
From Coq Require Import List Bool PeanoNat Lia.
From Verif Require Import Base ConcListModel ConcListSpec ConcListProofs.
Import ListNotations.

Section Solo.
Context {A : Type}.
Implicit Types (m : mem A) (L : list nat) (vs : list A) (p : pc A) (c : call A).

(** [p] returns after finitely many of its own steps. *)
Inductive returns : pc A -> mem A -> Prop :=
| ret_now p m r m' : micro p m = (inr r, m') -> returns p m
| ret_later p m p' m' : micro p m = (inl p', m') -> returns p' m' -> returns p m.

Lemma cas_returns m L vs v n len : linked m L vs -> forall d k a, length L - k = d -> nth_error L k = Some a ->
  returns (PushCas v n a len) m.
Proof.
  intros HL. induction d as [|d IH]; intros k a Hd Ha.
  - apply nth_error_lt in Ha. lia.
  - destruct (linked_get _ _ _ _ _ HL Ha) as (x & Ex & _).
    destruct (nth_error L (S k)) as [b|] eqn:En.
    + eapply ret_later; [cbn; unfold load_next; rewrite Ex; cbn [nnext]; reflexivity|].
      eapply ret_later; [cbn; unfold load_next; rewrite Ex; cbn [nnext]; reflexivity|].
      eapply ret_later; [cbn; unfold load_next; rewrite Ex; cbn [nnext]; reflexivity|].
      apply (IH (S k)); [|exact En]. lia.
    + eapply ret_now. cbn. unfold load_next. rewrite Ex. cbn [nnext]. reflexivity.
Qed.

Lemma tail_returns m L vs k : linked m L vs -> forall d i a len, length L - i = d -> nth_error L i = Some a ->
  returns (TailNext k a len) m.
Proof.
  intros HL. induction d as [|d IH]; intros i a len Hd Ha.
  - apply nth_error_lt in Ha. lia.
  - destruct (linked_get _ _ _ _ _ HL Ha) as (x & Ex & _).
    destruct (nth_error L (S i)) as [b|] eqn:En.
    + eapply ret_later; [cbn; unfold load_next; rewrite Ex; cbn [nnext]; reflexivity|].
      eapply ret_later; [cbn; unfold load_next; rewrite Ex; cbn [nnext]; reflexivity|].
      apply (IH (S i)); [|exact En]. lia.
    + destruct k as [v n|].
      * eapply ret_later; [cbn; unfold load_next; rewrite Ex; cbn [nnext]; reflexivity|].
        eapply cas_returns; eauto.
      * eapply ret_now. cbn. unfold load_next. rewrite Ex. cbn [nnext]. reflexivity.
Qed.

Lemma get_returns m L vs i : linked m L vs -> forall k j a, nth_error L j = Some a -> returns (GetNext i a k) m.
Proof.
  intros HL. induction k as [|k IH]; intros j a Ha; destruct (linked_get _ _ _ _ _ HL Ha) as (x & Ex & _).
  - eapply ret_now. cbn. rewrite Ex. reflexivity.
  - destruct (nth_error L (S j)) as [b|] eqn:En.
    + eapply ret_later; [cbn; unfold load_next; rewrite Ex; cbn [nnext]; reflexivity|].
      eapply ret_later; [cbn; unfold load_next; rewrite Ex; cbn [nnext]; reflexivity|].
      apply (IH (S j)). exact En.
    + eapply ret_now. cbn. unfold load_next. rewrite Ex. cbn [nnext]. reflexivity.
Qed.

Lemma iter_returns m L vs : linked m L vs -> forall d j a acc, length L - j = d -> nth_error L j = Some a ->
  returns (IterAt (Some a) acc) m.
Proof.
  intros HL. induction d as [|d IH]; intros j a acc Hd Ha.
  - apply nth_error_lt in Ha. lia.
  - destruct (linked_get _ _ _ _ _ HL Ha) as (x & Ex & _).
    destruct (nth_error L (S j)) as [b|] eqn:En.
    + destruct (linked_get _ _ _ _ _ HL En) as (y & Ey & _).
      eapply ret_later; [cbn; unfold load_next; rewrite Ex; cbn [nnext]; rewrite Ey; reflexivity|].
      apply (IH (S j)); [|exact En]. lia.
    + eapply ret_now. cbn. unfold load_next. rewrite Ex. cbn [nnext]. reflexivity.
Qed.

Lemma tail_head_returns m L vs c k : linked m L vs -> asker_ok c k -> (c <> Len -> L <> []) -> returns (TailHead k) m.
Proof.
  intros HL Hk HP. destruct (head m) as [a|] eqn:Eh.
  - eapply ret_later; [cbn; rewrite Eh; reflexivity|].
    eapply tail_returns with (i := 0); [exact HL|reflexivity|]. apply hd_some. rewrite <- (lk_head _ _ _ HL). exact Eh.
  - rewrite (lk_head _ _ _ HL) in Eh. destruct k as [v n|]; cbn in Hk; subst c.
    + elim HP; [discriminate|]. apply hd_none, Eh.
    + eapply ret_now. cbn. rewrite (lk_head _ _ _ HL), Eh. reflexivity.
Qed.

Lemma push_head_returns m L vs v n : linked m L vs -> returns (PushHead v n) m.
Proof.
  intros HL. destruct (head m) as [a|] eqn:Eh.
  - eapply ret_later; [cbn; rewrite Eh; reflexivity|].
    eapply (tail_head_returns m L vs (Push v)); [exact HL|reflexivity|].
    intros _ ->. rewrite (lk_head _ _ _ HL) in Eh. discriminate.
  - eapply ret_now. cbn. rewrite Eh. reflexivity.
Qed.

Lemma any_returns s m L vs c p : linked m L vs -> pcok s L vs c p -> returns p m.
Proof.
  intros HL HP. destruct p as [v|v n|k|k a len|k a len|v n a len|v n a len|v n a len| |i|i a k|i a k|loc acc|]; cbn in HP.
  - eapply ret_later; [reflexivity|]. eapply (push_head_returns _ L vs).
    destruct HL as [H1 H2 H3 H4]. constructor; cbn; auto.
    intros i a E. destruct (H2 i a E) as [x [E1 E2]]. exists x. split; [|exact E2]. apply nth_error_snoc, E1.
  - eapply push_head_returns; eauto.
  - destruct HP. eapply tail_head_returns; eauto.
  - destruct HP as (_ & _ & Ha). eapply tail_returns; eauto.
  - destruct HP as (_ & Hl & Ha). destruct (linked_get _ _ _ _ _ HL Ha) as (x & Ex & _).
    destruct (nth_error L (S (len - 1))) as [b|] eqn:En; [|apply nth_error_None in En; lia].
    eapply ret_later; [cbn; unfold load_next; rewrite Ex; cbn [nnext]; reflexivity|]. eapply tail_returns; eauto.
  - destruct HP as (_ & _ & k & Ha & _). eapply cas_returns; eauto.
  - destruct HP as (_ & _ & k & Ha & _). destruct (linked_get _ _ _ _ _ HL Ha) as (x & Ex & _).
    destruct (nth_error L (S k)) as [b|] eqn:En.
    + eapply ret_later; [cbn; unfold load_next; rewrite Ex; cbn [nnext]; reflexivity|].
      eapply ret_later; [cbn; unfold load_next; rewrite Ex; cbn [nnext]; reflexivity|]. eapply cas_returns; eauto.
    + eapply ret_later; [cbn; unfold load_next; rewrite Ex; cbn [nnext]; reflexivity|]. eapply cas_returns; eauto.
  - destruct HP as (_ & _ & k & Ha & _ & Hl). destruct (linked_get _ _ _ _ _ HL Ha) as (x & Ex & _).
    destruct (nth_error L (S k)) as [b|] eqn:En; [|apply nth_error_None in En; lia].
    eapply ret_later; [cbn; unfold load_next; rewrite Ex; cbn [nnext]; reflexivity|]. eapply cas_returns; eauto.
  - eapply ret_now. reflexivity.
  - destruct (head m) as [a|] eqn:Eh.
    + eapply ret_later; [cbn; rewrite Eh; reflexivity|]. eapply get_returns with (j := 0); [exact HL|].
      apply hd_some. rewrite <- (lk_head _ _ _ HL). exact Eh.
    + eapply ret_now. cbn. rewrite Eh. reflexivity.
  - destruct HP as (_ & _ & Ha). eapply get_returns; eauto.
  - destruct HP as (_ & Hk & Ha & Hl). destruct (linked_get _ _ _ _ _ HL Ha) as (x & Ex & _).
    destruct (nth_error L (S (i - S k))) as [b|] eqn:En; [|apply nth_error_None in En; lia].
    eapply ret_later; [cbn; unfold load_next; rewrite Ex; cbn [nnext]; reflexivity|]. eapply get_returns; eauto.
  - destruct loc as [a|].
    + destruct HP as (_ & j & Ha & _). eapply iter_returns; eauto.
    + destruct (head m) as [a|] eqn:Eh.
      * rewrite (lk_head _ _ _ HL) in Eh. apply hd_some in Eh. destruct (linked_get _ _ _ _ _ HL Eh) as (y & Ey & _).
        eapply ret_later; [cbn; rewrite (lk_head _ _ _ HL); destruct L; [discriminate|]; cbn in Eh; injection Eh as ->;
                           cbn; rewrite Ey; reflexivity|].
        eapply iter_returns with (j := 0); [exact HL|reflexivity|exact Eh].
      * eapply ret_now. cbn. rewrite Eh. reflexivity.
  - destruct HP.
Qed.

Lemma upd_upd {B} (l : list B) t (x y : B) : upd (upd l t x) t y = upd l t y.
Proof. revert t; induction l; intros [|t]; cbn; auto. f_equal. auto. Qed.

Lemma solo p m : returns p m -> forall cf t th c, nth_error (threads cf) t = Some th -> cur th = Some (c, p) ->
  memory cf = m -> exists k r, history (exec (repeat t k) cf) = history cf ++ [Ret t c r].
Proof.
  induction 1 as [p m r m' E|p m p' m' E H IH]; intros cf t th c Et Ec Em.
  - exists 1, r. cbn. unfold conf_step, thread_step. rewrite Et, Ec, Em, E. reflexivity.
  - assert (ES : conf_step cf t = Conf m' (upd (threads cf) t (Thread (todo th) (Some (c, p')))) (history cf)).
    { unfold conf_step, thread_step. rewrite Et, Ec, Em, E. rewrite app_nil_r. reflexivity. }
    destruct (IH (conf_step cf t) t (Thread (todo th) (Some (c, p'))) c) as (k & r & Hk).
    + rewrite ES. cbn. rewrite nth_error_upd, Nat.eqb_refl.
      rewrite (proj2 (Nat.ltb_lt _ _)) by (eapply nth_error_lt; exact Et). reflexivity.
    + reflexivity.
    + rewrite ES. reflexivity.
    + exists (S k), r. change (exec (repeat t (S k)) cf) with (exec (repeat t k) (conf_step cf t)).
      rewrite Hk, ES. reflexivity.
Qed.

End Solo.
