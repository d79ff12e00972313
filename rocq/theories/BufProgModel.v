(** Code that works in place on limb buffers of a fixed size, and looks at the overflow flags. *)
From Coq Require Import ZArith List Bool.
From Verif Require Import Base BitSliceModel ElementModel.
Import ListNotations.
Local Open Scope Z_scope.

(** Calls on numbered buffers; where both operands are the same buffer the caller clones the second.
    No code of its own: a caller of crates/bits/src/algos/element. *)
Inductive instr :=
| AddTo (i j : nat)
| SubFrom (i j : nat)
| MulBy (i j : nat)
| NotOf (i : nat)
| ShlBy (i s : nat).

(** crates/bits/src/algos/element/add.rs:40-68, sub.rs:54-91, mul.rs:56-90, neg.rs:3-7, shl.rs:71-79: the functions called.  The flag is
    what the caller sees: the overflow of the first three, [None] of the checked shift (which then
    leaves the buffer alone). *)
Definition step_buf (w : nat) (bufs : list (list Z)) (c : instr) : res (list (list Z) * bool) :=
  match c with
  | AddTo i j => let '(x, o) := elem_add_overflowing w (nth i bufs []) (nth j bufs []) in Ok (upd bufs i x, o)
  | SubFrom i j => let '(x, o) := elem_sub_overflowing w (nth i bufs []) (nth j bufs []) in Ok (upd bufs i x, o)
  | MulBy i j => let '(x, o) := elem_mul_overflowing w (nth i bufs []) (nth j bufs []) in Ok (upd bufs i x, o)
  | NotOf i => Ok (upd bufs i (elem_not w (nth i bufs [])), false)
  | ShlBy i s => do r <- elem_shl_checked w (nth i bufs []) s ;;
      match r with Some x => Ok (upd bufs i x, false) | None => Ok (bufs, true) end
  end.

(** One call after another; the flags in order.  No code of its own: the caller. *)
Fixpoint run_bufs (w : nat) (cs : list instr) (bufs : list (list Z)) : res (list (list Z) * list bool) :=
  match cs with
  | [] => Ok (bufs, [])
  | c :: cs => do r <- step_buf w bufs c ;; do q <- run_bufs w cs (fst r) ;; Ok (fst q, snd r :: snd q)
  end.
