(** Model of [fmt::Binary] for [Fixed<T, N>] over a primitive integer (crates/reals/src/fixed.rs:82-94). *)
From Coq Require Import ZArith List Bool.
From Verif Require Import Base BitSliceModel PrimModel FixedModel.
Import ListNotations.
Local Open Scope Z_scope.

(** std [fmt::Binary] of a primitive: the binary digits of its two's complement, without leading zeros.
    Text is a list of character codes, ['0'] being 48. *)
Definition unsigned_binary (v : Z) : list Z :=
  map (fun i => if Z.testbit v (Z.of_nat i) then 49 else 48) (rev (seq 0 (S (Z.to_nat (Z.log2 v))))).
Definition prim_binary (t : ity) (x : Z) : list Z := unsigned_binary (x mod 2 ^ Z.of_nat (ibits t)).

(** fixed.rs:86-93 [fmt]: ["{:b}.{:b}"] of the raw values of [trunc] and [fract]. *)
Definition fx_binary (dbg : bool) (t : ity) (N : nat) (x : Z) : res (list Z) :=
  do w <- fx_trunc dbg t N x ;;
  do f <- fx_fract dbg t N x ;;
  Ok (prim_binary t w ++ [46] ++ prim_binary t f).
