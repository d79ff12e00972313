(** Arithmetic expressions over byte-array integers: the operators of crates/ints/src/u.rs:239-305, 349-355 and
    crates/ints/src/i.rs:40-105 composed, operands evaluated from left to right (the types are [Copy]). *)
From Coq Require Import ZArith List Bool.
From Verif Require Import Base Words BitSliceModel UModel IModel.
Import ListNotations.
Local Open Scope Z_scope.

Inductive uexpr :=
| Arg (i : nat)
| Const (bytes : list Z)
| Plus (e f : uexpr)
| Diff (e f : uexpr)
| Times (e f : uexpr)
| Compl (e : uexpr)      (* !e *)
| Negate (e : uexpr).    (* -e, for I<N> only *)

(** u.rs: [+], [-], [*] and [!] of [U<N>]; there is no unary minus. *)
Fixpoint ueval (dbg : bool) (args : list (list Z)) (e : uexpr) : res (list Z) :=
  match e with
  | Arg i => Ok (nth i args [])
  | Const c => Ok c
  | Plus e f => do a <- ueval dbg args e ;; do b <- ueval dbg args f ;; u_add dbg a b
  | Diff e f => do a <- ueval dbg args e ;; do b <- ueval dbg args f ;; u_sub dbg a b
  | Times e f => do a <- ueval dbg args e ;; do b <- ueval dbg args f ;; u_mul dbg a b
  | Compl e => do a <- ueval dbg args e ;; Ok (u_not a)
  | Negate _ => Panic
  end.

(** i.rs: the same of [I<N>], and unary minus; none of them can panic. *)
Fixpoint ieval (args : list (list Z)) (e : uexpr) : list Z :=
  match e with
  | Arg i => nth i args []
  | Const c => c
  | Plus e f => i_add (ieval args e) (ieval args f)
  | Diff e f => i_sub (ieval args e) (ieval args f)
  | Times e f => i_mul (ieval args e) (ieval args f)
  | Compl e => i_not (ieval args e)
  | Negate e => i_neg (ieval args e)
  end.
