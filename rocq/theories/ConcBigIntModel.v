(** BigInts made by several threads.  The threads share [INT_STORE] (crates/ints/src/big_int.rs:28), an [Interner] of
    limb slices: making a large BigInt calls [add] (big_int.rs:180-189), cloning one [incr] (324-332), dropping one
    [decr] (334-341), and reading one [get] (147-154); small ones do not touch it.  So an execution is an execution of
    ConcInternModel.v with [T := list Z], and a large BigInt is one of its handles together with a sign.  Simplified as there. *)
From Coq Require Import ZArith List Bool.
From Verif Require Import Base BitSliceModel InternModel BigIntModel ConcInternModel.
Import ListNotations.
Local Open Scope Z_scope.

(** big_int.rs:28: [n] threads, the interner empty. *)
Definition start (n : nat) : iconf (list Z) := iinitial n 0.
Definition run (dbg : bool) (n : nat) (acts : list (action (list Z))) : iconf (list Z) := iexec list_eqb dbg acts (start n).

(** The word of a BigInt that a thread made from the limbs [l] (shrunk) and the sign, and that has not been dropped:
    big_int.rs:191-201 [new_slice], 168-178 [new_inline], 180-189 [new_intern]. *)
Definition is_word (cf : iconf (list Z)) (l : list Z) (neg : bool) (w : Z) : Prop :=
  if Nat.eqb (length l) 1 && (zget l 0 <=? max_offset) then new_inline (zget l 0) neg = Ok w
  else exists m h, nth_error (handles cf) m = Some h /\ hst h <> Gone /\ hval h = l /\
    to_new (hid h) (if neg then TNeg else TNone) = Ok w.
