(** Specification vocabulary for caught panics. *)
From Coq Require Import ZArith List.
From Verif Require Import Base BigIntRun BigIntUnwindModel.
Import ListNotations.

(** The names whose values a call takes by value.  An assigning operator takes its right-hand side at most: its target stays with the caller. *)
Definition operands (c : call) : list nat :=
  match c with
  | Call (ValVal _ a b) | Call (Pow _ a b) => [a; b]
  | Call (Drop a) | Call (ValRef _ a _) | Call (ValInt _ a _ _) | Call (Neg a) | Call (Not a) | Call (Abs a)
  | Call (Truncate _ a) | Call (Saturate _ a) => [a]
  | Call (RefVal _ _ b) | AssignVal _ _ b => [b]
  | _ => []
  end.

(** [e'] is [e] without the values named in [gone]. *)
Definition without (gone : list nat) (e e' : env) : Prop :=
  length e' = length e /\
  forall i, (In i gone -> nth_error e' i = Some None) /\ (~ In i gone -> nth_error e' i = nth_error e i).
