(** Specification vocabulary for programs that share the list and other memory: what happens before
    what, read off a history. *)
From Coq Require Import List PeanoNat.
From Verif Require Import ConcListModel WeakListModel WeakListSpec WeakDataModel.
Import ListNotations.

Section Spec.
Context {A : Type}.

(** The part of a history that is about the list. *)
Definition list_part (h : list (devent A)) : list (wevent A) :=
  flat_map (fun e => match e with DList e => [e] | DAccess _ _ _ => [] end) h.

(** The event at position [i] of [h] is an event of thread [t]. *)
Definition by_thread (h : list (devent A)) (i t : nat) : Prop :=
  match nth_error h i with
  | Some (DList (WInv u _)) | Some (DList (WRet u _ _)) | Some (DList (WSynced u _)) | Some (DAccess u _ _) => u = t
  | None => False
  end.

(** The event at position [i] is the end of the call that put element [q] into the list. *)
Definition pushes (h : list (devent A)) (i q : nat) : Prop :=
  q = length (wpushed (list_part (firstn i h))) /\ exists t v r, nth_error h i = Some (DList (WRet t (Push v) r)).

(** What is ordered before what: the events of a thread, one after the other; what a thread has done
    before what another does after synchronising with it; and the push of an element before what a
    thread does once it has been shown that element. *)
Inductive edge (h : list (devent A)) (i j : nat) : Prop :=
| by_program (t : nat) : i < j -> by_thread h i t -> by_thread h j t -> edge h i j
| by_sync (t u : nat) : i < j -> by_thread h i u -> nth_error h j = Some (DList (WSynced t u)) -> edge h i j
| by_list (t q : nat) : i < j -> pushes h i q -> by_thread h j t -> q < aware (list_part (firstn (S j) h)) t -> edge h i j.
Inductive happens_before (h : list (devent A)) (i : nat) : nat -> Prop :=
| hb_one j : edge h i j -> happens_before h i j
| hb_more k j : happens_before h i k -> edge h k j -> happens_before h i j.

(** Two accesses to the same location, one of them a write, the first before the second in [h]. *)
Definition conflict (h : list (devent A)) (i j : nat) : Prop :=
  i < j /\ exists t u x w w', nth_error h i = Some (DAccess t x w) /\ nth_error h j = Some (DAccess u x w') /\
    (w = true \/ w' = true).
End Spec.
