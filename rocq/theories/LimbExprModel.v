(** Code that composes the algorithms of crates/bits on growing limb vectors. *)
From Coq Require Import ZArith List Bool.
From Verif Require Import Base BitSliceModel ElementModel BitwiseModel.
Import ListNotations.
Local Open Scope Z_scope.

(** crates/bits/src/algos.rs:4-5: each operation comes limb by limb or bit by bit. *)
Inductive algo := Element | Bitwise.

(** What a caller can write; the operands of and, or and xor have one algorithm only.
    No code of its own: a caller of crates/bits/src/algos. *)
Inductive lexp :=
| Slice (l : list Z)
| Add (k : algo) (a b : lexp)
| Sub (k : algo) (a b : lexp)
| Mul (k : algo) (a b : lexp)
| Shl (k : algo) (a : lexp) (s : nat)
| Shr (k : algo) (a : lexp) (s : nat)
| And (a b : lexp)
| Or (a b : lexp)
| Xor (a b : lexp).

(** crates/bits/src/algos/{element,bitwise}/{add,sub,mul,shl,shr}.rs, element/bit{and,or,xor}.rs: the functions called.  A caller that gets a borrow from [sub]
    gives up (here: panics). *)
Fixpoint run_exp (dbg : bool) (w : nat) (e : lexp) : res (list Z) :=
  match e with
  | Slice l => Ok l
  | Add k a b => do x <- run_exp dbg w a ;; do y <- run_exp dbg w b ;;
      match k with Element => elem_add w x y | Bitwise => Ok (bit_add w x y) end
  | Sub k a b => do x <- run_exp dbg w a ;; do y <- run_exp dbg w b ;;
      do r <- match k with Element => elem_sub w x y | Bitwise => bit_sub w x y end ;;
      if snd r : bool then Panic else Ok (fst r)
  | Mul k a b => do x <- run_exp dbg w a ;; do y <- run_exp dbg w b ;;
      match k with Element => elem_mul w x y | Bitwise => bit_mul w x y end
  | Shl k a s => do x <- run_exp dbg w a ;; match k with Element => elem_shl w x s | Bitwise => Ok (bit_shl w x s) end
  | Shr k a s => do x <- run_exp dbg w a ;; match k with Element => elem_shr dbg w x s | Bitwise => bit_shr w x s end
  | And a b => do x <- run_exp dbg w a ;; do y <- run_exp dbg w b ;; Ok (elem_bitand x y)
  | Or a b => do x <- run_exp dbg w a ;; do y <- run_exp dbg w b ;; Ok (elem_bitor x y)
  | Xor a b => do x <- run_exp dbg w a ;; do y <- run_exp dbg w b ;; Ok (elem_bitxor x y)
  end.
