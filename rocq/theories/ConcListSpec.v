(** What a user of the shared list can say: its contents, and what calls may answer. *)
From Coq Require Import List Bool PeanoNat.
From Verif Require Import Base ConcListModel.
Import ListNotations.

Section Spec.
Context {A : Type}.

(** The values met by following the pointers from [p], if null is reached within [fuel]
    nodes. *)
Fixpoint walk (hp : list (node A)) (fuel : nat) (p : option nat) : option (list A) :=
  match p, fuel with
  | None, _ => Some []
  | Some _, O => None
  | Some a, S f =>
    match nth_error hp a with
    | None => None
    | Some x => option_map (cons (nval x)) (walk hp f (nnext x))
    end
  end.

(** The values in the list, in order; [None] if the list is cyclic or has a dangling
    pointer. *)
Definition contents (m : mem A) : option (list A) := walk (heap m) (length (heap m)) (head m).

(** The values of the pushes that have returned, in the order in which they returned. *)
Definition pushed (h : list (event A)) : list A :=
  flat_map (fun e => match e with Ret _ (Push v) _ => [v] | _ => [] end) h.

Definition thread_of (e : event A) : nat := match e with Inv t _ => t | Ret t _ _ => t end.

(** Acceptable answers to a call, when [l0] had been pushed before the call was made and [l1]
    before it returned (itself excluded). *)
Definition answer_ok (l0 l1 : list A) (c : call A) (r : result A) : Prop :=
  match c, r with
  | Push v, RNat n => length l0 + 1 <= n <= length l1 + 1
  | Get i, ROpt o => o = nth_error l1 i
  | IterAll, RList l => l = l1
  | Len, RNat n => n = length l1
  | IsEmpty, RBool b => (b = true <-> l1 = [])
  | _, _ => False
  end.

(** [h1] ends with thread [t] inside a call [c] made when the history was [h0]. *)
Definition inside (h0 h1 : list (event A)) (t : nat) (c : call A) : Prop :=
  exists h, h1 = h0 ++ Inv t c :: h /\ Forall (fun e => thread_of e <> t) h.

(** Every return in the history ends a call made before, with an acceptable answer. *)
Definition history_ok (h : list (event A)) : Prop :=
  forall h1 t c r h2, h = h1 ++ Ret t c r :: h2 ->
  exists h0, inside h0 h1 t c /\ answer_ok (pushed h0) (pushed h1) c r.

End Spec.
