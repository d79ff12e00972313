(** What the callers of a shared interner can say about it. *)
From Coq Require Import ZArith List Bool.
From Verif Require Import Base InternModel ConcInternModel.
Import ListNotations.
Local Open Scope Z_scope.

Section Spec.
Context {T : Type}.

(** Handles for id [k] that have not been given back. *)
Definition held (cf : iconf T) (k : Z) : nat :=
  length (filter (fun h => (hid h =? k) && match hst h with Gone => false | _ => true end) (handles cf)).

(** Calls of [add] that have taken their reference to [k] but have not returned yet. *)
Definition arriving (cf : iconf T) (k : Z) : nat :=
  length (filter (fun p => match p with Some (SetVal _ i j) => idx_to_offset i j =? k | _ => false end)
                 (ithreads cf)).

(** No call is in progress. *)
Definition quiet (cf : iconf T) : Prop := Forall (fun p => p = None) (ithreads cf).

(** The thread is inside a call of [add]. *)
Definition adding (p : option (ipc T)) : bool :=
  match p with
  | Some (FindChunk _ _) | Some (FindRefs _ _ _) | Some (FindVal _ _ _ _) | Some (IncrLive _ _ _)
  | Some (IncrDead _ _ _) | Some (SetVal _ _ _) | Some (PushHead _) | Some (PushTail _)
  | Some (PushLink _ _) => true
  | _ => false
  end.

(** During the execution at most one call of [add] is ever in progress. *)
Definition one_adder (eqb : T -> T -> bool) (dbg : bool) (cf : iconf T) (acts : list (action T)) : Prop :=
  forall a1 a2, acts = a1 ++ a2 ->
  (length (filter adding (ithreads (iexec eqb dbg a1 cf))) <= 1)%nat.

(** At no moment of the execution are there 2^64 - 1 references to one id: the counts, which
    are [usize] and wrap, are never full. *)
Definition counts_fit (eqb : T -> T -> bool) (dbg : bool) (cf : iconf T) (acts : list (action T)) : Prop :=
  forall a1 a2 k, acts = a1 ++ a2 ->
  let cf' := iexec eqb dbg a1 cf in Z.of_nat (held cf' k + arriving cf' k) < 2 ^ 64 - 1.

End Spec.
