(** Result type, build profile, and the slice primitives every model file uses. *)
From Coq Require Import ZArith List Bool Lia.
Import ListNotations.
Local Open Scope Z_scope.

(** Outcome of a Rust call.  [Panic] is any Rust panic (failed [unwrap]/[expect],
    out-of-bounds indexing, arithmetic overflow in a build with overflow checks, ...).
    [Timeout] is only produced when the fuel given to the model of a [while]/[loop]
    runs out; it never stands for a Rust result. *)
Inductive res (A : Type) : Type :=
| Ok (a : A)
| Panic
| Timeout.
Arguments Ok {A} a.
Arguments Panic {A}.
Arguments Timeout {A}.

Definition bind {A B} (x : res A) (f : A -> res B) : res B :=
  match x with Ok a => f a | Panic => Panic | Timeout => Timeout end.

Notation "'do' x <- e1 ;; e2" := (bind e1 (fun x => e2))
  (at level 200, x pattern, e1 at level 100, e2 at level 200, right associativity).

Definition rmap {A B} (f : A -> B) (x : res A) : res B :=
  match x with Ok a => Ok (f a) | Panic => Panic | Timeout => Timeout end.

(** [Option::unwrap] / [Option::expect]. *)
Definition unwrap {A} (o : option A) : res A :=
  match o with Some a => Ok a | None => Panic end.

(** [Option::unwrap_or]. *)
Definition unwrap_or {A} (o : option A) (d : A) : A :=
  match o with Some a => a | None => d end.

(** A fold whose body may panic: the model of a [for] loop over the index list [l]. *)
Fixpoint foldR {S I} (f : S -> I -> res S) (l : list I) (s : S) : res S :=
  match l with
  | [] => Ok s
  | i :: l' => do s' <- f s i ;; foldR f l' s'
  end.

(** Overwrite position [i] of a list; nothing happens when [i] is out of range. *)
Fixpoint upd {A} (l : list A) (i : nat) (v : A) : list A :=
  match l, i with
  | [], _ => []
  | _ :: l', O => v :: l'
  | x :: l', S i' => x :: upd l' i' v
  end.

(** Element at [i] of a list of limbs, zero when out of range: the idiom
    [s.get_opt(i).unwrap_or(zero)]. *)
Definition zget (l : list Z) (i : nat) : Z := nth i l 0.

(** [vec![zero; n]]. *)
Definition zeros (n : nat) : list Z := repeat 0 n.
