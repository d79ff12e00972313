(** Model of crates/static-iter/src/codegen.rs: arithmetic on arrays of [i32] by static iterators. *)
From Coq Require Import ZArith List Bool.
From Verif Require Import Base BitSliceModel PrimModel StaticIterModel CompoundIntModel.
Import ListNotations.
Local Open Scope Z_scope.

Section Codegen.
Variable dbg : bool.
Notation i32 := {| ibits := 32; isigned := true |}.

(** A closure without state that may panic.  crates/static-iter/src/codegen.rs:7, 15, 21, 27. *)
Definition stateless {A B} (f : A -> out B) : unit -> A -> out (unit * B) := fun _ x => obind (f x) (fun y => Ret (tt, y)).

(** [map(f).collect()] into an array.  crates/static-iter/src/codegen.rs:4-8, 12-16, 21, 26-28. *)
Definition map_collect {A B} (n : nat) (a : adapter A) (f : A -> out B) : out (list B) :=
  obind (collect_array n (it_map a (stateless f) tt)) (fun r => Ret (snd r)).

(** codegen.rs:4-9 [zip_add]. *)
Definition cg_zip_add (n : nat) (a b : list Z) : out (list Z) :=
  map_collect n (it_zip (into_iter a) (into_iter b)) (fun '(l, r) => int_add dbg i32 l r).

(** codegen.rs:12-17 [zip_mul]. *)
Definition cg_zip_mul (n : nat) (a b : list Z) : out (list Z) :=
  map_collect n (it_zip (into_iter a) (into_iter b)) (fun '(l, r) => int_mul dbg i32 l r).

(** codegen.rs:20-22 [map_neg]. *)
Definition cg_map_neg (n : nat) (a : list Z) : out (list Z) :=
  map_collect n (into_iter a) (fun a => of_res (arith dbg i32 (- a))).

(** codegen.rs:25-29 [zip_many]; the pattern is an array of four, so the last case does not arise. *)
Definition cg_zip_many (n : nat) (a b c d : list Z) : out (list Z) :=
  map_collect n (zip_all [a; b; c; d]) (fun row =>
    match row with
    | [a; b; c; d] => obind (int_mul dbg i32 a b) (fun p => obind (int_mul dbg i32 p c) (fun p => int_mul dbg i32 p d))
    | _ => UB
    end).
End Codegen.
