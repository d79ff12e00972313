(** Arithmetic expressions over BigInts, as a user writes them: literals, variables, operators on owned and borrowed operands
    in any mix.  Evaluating one is a sequence of library calls in Rust's order (operands from left to right, temporaries moved
    into the operator), on the models of the calls in BigIntModel.v. *)
From Coq Require Import ZArith List Bool.
From Verif Require Import Base BitSliceModel InternModel BigIntModel BigIntRun.
Import ListNotations.
Local Open Scope Z_scope.

(** [i] and [j] are variables, used by reference.  No code of its own: what a caller writes. *)
Inductive expr :=
| Lit (t : ity) (v : Z)                         (* BigInt::from(v) *)
| Cloned (i : nat)                              (* x.clone() *)
| VarVar (o : operator) (i j : nat)             (* &x + &y *)
| ExpVar (o : operator) (e : expr) (j : nat)    (* e + &y *)
| VarExp (o : operator) (i : nat) (e : expr)    (* &x + e *)
| ExpExp (o : operator) (e f : expr)            (* e + f *)
| ExpInt (o : operator) (e : expr) (t : ity) (v : Z)  (* e + 3u8 *)
| Power (e f : expr)                            (* e.pow(f) *)
| Minus (e : expr).                             (* -e *)

(** crates/ints/src/big_int/macros.rs:206-268 (the operator forms), 18-39 (with a primitive on the right), 45-66 (constructors),
    crates/ints/src/big_int.rs:323-331 [clone], 544-551 [neg], 707-724 [pow].  [vars] are the handles of the variables; [fuel]
    bounds the iterations of [pow]. *)
Fixpoint eval (dbg : bool) (fuel : nat) (vars : list Z) (e : expr) : M Z :=
  let var i := nth i vars 0 in
  match e with
  | Lit t v => bi_from dbg t v
  | Cloned i => bi_clone dbg (var i)
  | VarVar o i j => operate dbg o (var i) (var j)
  | ExpVar o e j => let! a := eval dbg fuel vars e in by_val_ref (operate dbg o) a (var j)
  | VarExp o i e => let! b := eval dbg fuel vars e in by_ref_val (operate dbg o) (var i) b
  | ExpExp o e f => let! a := eval dbg fuel vars e in let! b := eval dbg fuel vars f in by_val (operate dbg o) a b
  | ExpInt o e t v => let! a := eval dbg fuel vars e in op_int dbg (operate dbg o) t a v
  | Power e f => let! a := eval dbg fuel vars e in let! b := eval dbg fuel vars f in bi_pow dbg fuel a b
  | Minus e => let! a := eval dbg fuel vars e in ret (bi_neg a)
  end.
