(** Threads that take turns in calling [add] on a shared interner. *)
From Coq Require Import ZArith List Bool PeanoNat.
From Verif Require Import Base ConcInternModel WeakInternModel WeakChunkModel.
Import ListNotations.

Section Spec.
Context {T : Type} (eqb : T -> T -> bool).

(** The thread is there and inside no call. *)
Definition between_calls (cs : cconf T) (t : nat) : Prop :=
  exists V, nth_error (wthreads (cbase cs)) t = Some (WThread None V).

(** The execution [acts] of the code as it is (no lock) from [cs], in which it is the turn of thread [h]:
    [add] is called by the thread whose turn it is only, and when thread [t] learns what thread [h] has
    done (by receiving a message, by joining it, ...), both between calls, it may become the turn of
    [t].  All else ([incr], [decr] and [get] by all threads, any interleaving, any stale read) is free. *)
Fixpoint in_turn (h : nat) (acts : list (waction T * bool)) (cs : cconf T) : Prop :=
  match acts with
  | [] => True
  | a :: rest =>
    let cs' := cconf_step eqb false cs a in
    match fst a with
    | WBegin t (CAdd _) => t = h /\ in_turn h rest cs'
    | WSync t u => in_turn h rest cs' \/ (u = h /\ between_calls cs t /\ between_calls cs u /\ in_turn t rest cs')
    | _ => in_turn h rest cs'
    end
  end.
End Spec.
