(** [Interner::with_capacity] for every [usize], with the arithmetic it does. *)
From Coq Require Import ZArith List Bool.
From Verif Require Import Base BitSliceModel PrimModel InternModel.
Import ListNotations.
Local Open Scope Z_scope.

(** Rust's [usize] on 64-bit targets.  No code of its own. *)
Definition usize_t : ity := {| ibits := 64; isigned := false |}.

(** crates/utils/src/intern.rs:84-90 [with_capacity]: the number of chunks pushed, [(capacity + CHUNK_SIZE - 1) / 32], computed in
    [usize] from the left. *)
Definition chunks_for (dbg : bool) (capacity : Z) : res Z :=
  do a <- arith dbg usize_t (capacity + Z.of_nat chunk_size) ;;
  do b <- arith dbg usize_t (a - 1) ;;
  Ok (b / 32).

(** crates/utils/src/intern.rs:84-90 [with_capacity]. *)
Definition with_capacity_usize {T} (dbg : bool) (capacity : Z) : res (store T) :=
  do n <- chunks_for dbg capacity ;; Ok (repeat new_chunk (Z.to_nat n)).
