(** Data races on the values of a shared interner, and threads inside calls. *)
From Coq Require Import ZArith List Bool PeanoNat.
From Verif Require Import Base ConcInternModel WeakInternModel.
Import ListNotations.

Section Spec.
Context {T : Type}.

(** Two accesses to the same memory, at least one of them a write, of which neither happens before the
    other.  (The later one in the execution cannot happen before the earlier one.) *)
Definition race (log : list access) : Prop :=
  exists i j a b, i < j /\ nth_error log i = Some a /\ nth_error log j = Some b /\
    aslot a = aslot b /\ (aby a = BySet \/ aby b = BySet) /\ ~ In (Acc i) (aview b).

(** How many threads are inside a call. *)
Definition inside (cf : wconf T) : nat :=
  length (filter (fun th => match wpos th with Some _ => true | None => false end) (wthreads cf)).
End Spec.
