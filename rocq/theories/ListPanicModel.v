(** crates/utils/src/linked.rs:139-148, dropping the shared list when destructors of the elements panic; and
    crates/utils/src/intern.rs:69-71, the interner, whose elements are arrays of slots. *)
From Coq Require Import List Bool PeanoNat.
From Verif Require Import Base ConcListModel.
Import ListNotations.

(** What running a destructor does.  The [Drop] of the element type, called in crates/utils/src/linked.rs:140-148. *)
Inductive destroyed := Fine | Unwinds | Aborts.

Section Model.
Context {A : Type} (destroy : A -> destroyed).

(** The ways dropping the list can end: heap and values whose destructor was started, in order.  crates/utils/src/linked.rs:140-148. *)
Inductive pdropped := PFreed (hp : list (option (node A))) (vals : list A) | PUnwinds (hp : list (option (node A))) (vals : list A)
  | PAborts (vals : list A) | PBadFree | PMore.

(** linked.rs:139-148.  The box is a temporary of the assignment: the next pointer is loaded, then the box is dropped, which runs the
    destructor of the value and frees the node even if that panics; the panic leaves the loop. *)
Fixpoint pdrop_loop (fuel : nat) (hp : list (option (node A))) (cur : option nat) (vals : list A) : pdropped :=
  match cur, fuel with
  | None, _ => PFreed hp vals
  | Some _, O => PMore
  | Some a, S fuel' =>
    match nth_error hp a with
    | Some (Some x) =>
      match destroy (nval x) with
      | Fine => pdrop_loop fuel' (upd hp a None) (nnext x) (vals ++ [nval x])
      | Unwinds => PUnwinds (upd hp a None) (vals ++ [nval x])
      | Aborts => PAborts (vals ++ [nval x])
      end
    | _ => PBadFree
    end
  end.
Definition pdrop_list (fuel : nat) (m : mem A) : pdropped := pdrop_loop fuel (map Some (heap m)) (head m) [].
End Model.
Arguments pdropped A : clear implicits.

(** The drop glue of an array of slots (intern.rs:15-20 [Interned], 70): the elements are dropped in order; after one destructor has
    panicked the others still run; a second panic aborts.  Empty slots have no destructor to run. *)
Fixpoint destroy_chunk {V} (panics : V -> bool) (unwinding : bool) (chunk : list (option V)) : destroyed :=
  match chunk with
  | [] => if unwinding then Unwinds else Fine
  | Some v :: rest => if panics v then (if unwinding then Aborts else destroy_chunk panics true rest) else destroy_chunk panics unwinding rest
  | None :: rest => destroy_chunk panics unwinding rest
  end.
