(** Model of crates/reals/src/p.rs ([P<N>]: an array of bytes) and crates/reals/src/f.rs
    ([F<N>]).  The remaining operations of [P] are [todo!()]. *)
From Coq Require Import ZArith List Bool.
From Verif Require Import Base Words UModel.
Import ListNotations.
Local Open Scope Z_scope.

(** p.rs:26-28 [new] (39-43 [default]). *)
Definition posit_new (n : nat) : list Z := repeat 0 n.

(** p.rs:30-32 [is_negative]; indexing panics for [N = 0]. *)
Definition posit_is_negative (p : list Z) : res bool :=
  match p with [] => Panic | b :: _ => Ok (negb (Z.land b 1 =? 0)) end.

(** p.rs:34-36 [is_nar]. *)
Definition posit_is_nar (p : list Z) : res bool :=
  match p with [] => Panic | b :: bs => Ok ((b =? 1) && forallb (fun b => b =? 0) bs) end.

(** p.rs:57-64 [neg]. *)
Definition posit_neg (p : list Z) : res (list Z) :=
  match p with [] => Panic | b :: bs => Ok (Z.lxor b 1 :: bs) end.

(** f.rs:33-78.  [le]: the target is little endian. *)
Definition f_from_le_bytes (b : list Z) : list Z := b.
Definition f_from_be_bytes (b : list Z) : list Z := rev b.
Definition f_from_ne_bytes (le : bool) (b : list Z) : list Z :=
  if le then f_from_le_bytes b else f_from_be_bytes b.
Definition f_to_le_bytes (f : list Z) : list Z := f.
Definition f_to_be_bytes (f : list Z) : list Z := rev f.
Definition f_to_ne_bytes (le : bool) (f : list Z) : list Z :=
  if le then f_to_le_bytes f else f_to_be_bytes f.

(** f.rs:23-31 [to_bits], [from_bits]: through [U<N>]. *)
Definition f_to_bits (f : list Z) : U := u_from_le_bytes (f_to_le_bytes f).
Definition f_from_bits (v : U) : list Z := u_to_le_bytes v.
