(** Specification vocabulary for histories of interner calls. *)
From Coq Require Import ZArith List.
Import ListNotations.
Local Open Scope Z_scope.

(** A completed call: [add v] that returned id [k], [incr k], [decr k]. *)
Inductive event (T : Type) := EAdd (v : T) (k : Z) | EIncr (k : Z) | EDecr (k : Z).
Arguments EAdd {T} v k.
Arguments EIncr {T} k.
Arguments EDecr {T} k.

(** References to [k] after a history: one per [add] that returned it and per [incr], minus
    one per [decr] (which has no effect at zero). *)
Definition count_step {T} (k : Z) (n : Z) (e : event T) : Z :=
  match e with
  | EAdd _ k' | EIncr k' => if k' =? k then n + 1 else n
  | EDecr k' => if k' =? k then Z.max 0 (n - 1) else n
  end.
Definition count {T} (k : Z) (tr : list (event T)) : Z := fold_left (count_step k) tr 0.

(** The value of the last [add] that returned [k]. *)
Definition last_step {T} (k : Z) (o : option T) (e : event T) : option T :=
  match e with
  | EAdd v k' => if k' =? k then Some v else o
  | _ => o
  end.
Definition last_added {T} (k : Z) (tr : list (event T)) : option T := fold_left (last_step k) tr None.

(** At no moment of a history are there 2^64 - 1 references to one id: the counts, which are
    [usize] and wrap, are never full. *)
Definition never_full {T} (tr : list (event T)) : Prop :=
  forall tr1 tr2 k, tr = tr1 ++ tr2 -> count k tr1 < 2 ^ 64 - 1.
