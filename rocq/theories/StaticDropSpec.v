(** Specification vocabulary for the elements owned by static iterators. *)
From Coq Require Import List.
From Verif Require Import StaticIterModel.
Import ListNotations.

(** The arrays a stack owns, cell by cell; [None] is a cell whose element was handed out. *)
Definition source := {T : Type & list (option T)}.
Definition array {T : Type} (cells : list (option T)) : source := existT (fun T => list (option T)) T cells.
Fixpoint sources {A} (a : adapter A) : list source :=
  match a with
  | AInto cells _ => [array cells]
  | ARef _ _ | ARange _ => []
  | AMap _ _ inner | AEnum inner => sources inner
  | AZip l r => sources l ++ sources r
  | AZipAll arrs => flat_map sources arrs
  end.

(** The first [k] elements handed out, all others still in their cells. *)
Definition after (k : nat) (s : source) : source :=
  existT _ (projT1 s) (repeat None k ++ skipn k (projT2 s)).

(** Nothing left. *)
Definition emptied (s : source) : Prop := Forall (fun c => c = None) (projT2 s).
