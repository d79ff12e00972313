(** Vectors, matrices and complex numbers whose elements are BigInts: the generic code of crates/compounds, element by element in
    the order in which it calls the operators, clones and drops of crates/ints/src/big_int.rs (BigIntModel.v).  Values are the
    handles of BigInts; taking an array apart and collecting one (crates/static-iter, StaticIterModel.v) moves its elements, each
    once and in order, and does nothing else with them.  After a panic nothing is modelled. *)
From Coq Require Import ZArith List Bool.
From Verif Require Import Base BitSliceModel InternModel BigIntModel BigIntRun VectorModel.
Import ListNotations.

(** Calls for every element, in order: [map], [for_each] of arrays and core::array::from_fn.
    Used in crates/compounds/src/vector.rs:27-34, 313-352, 375-408 and matrix/static.rs:55, 136-137. *)
Fixpoint each {A B} (f : A -> M B) (l : list A) : M (list B) :=
  match l with
  | [] => ret []
  | x :: r => let! y := f x in let! ys := each f r in ret (y :: ys)
  end.

(** Dropping an array of BigInts.
    The end of the scope of an operand in crates/compounds/src/vector.rs:313-352; each is crates/ints/src/big_int.rs [Drop]. *)
Fixpoint drop_all (l : list Z) : M unit :=
  match l with
  | [] => ret tt
  | x :: r => let! _ := bi_drop x in drop_all r
  end.

(** Indexing, with bounds checks: vector.rs:290-294, static.rs:183-189. *)
Definition item {A} (l : list A) (i : nat) : M A :=
  match nth_error l i with Some x => ret x | None => lift Panic end.
Definition entry (m : list (list Z)) (i j : nat) : M Z := let! row := item m i in item row j.

Section Compounds.
Context (dbg : bool).
Notation by_op o := (by_val (operate dbg o)).
Notation clone := (bi_clone dbg).

(** vector.rs:303-317 [Vector op Vector]. *)
Definition bv_op (o : operator) (a b : list Z) : M (list Z) := each (fun '(l, r) => by_op o l r) (combine a b).
(** vector.rs:319-333 [Vector op &Vector]; also 391-404 [op=] with a borrowed vector (BigIntModel.v [by_val_ref]). *)
Definition bv_op_ref (o : operator) (a b : list Z) : M (list Z) :=
  each (fun '(l, r) => by_val_ref (operate dbg o) l r) (combine a b).
(** vector.rs:335-344 [Vector op T]: the scalar is cloned for every element and dropped at the end. *)
Definition bv_scalar (o : operator) (a : list Z) (s : Z) : M (list Z) :=
  let! c := each (fun l => let! r := clone s in by_op o l r) a in let! _ := bi_drop s in ret c.
(** vector.rs:346-355 [Vector op &T]; also 406-416 [op=] with a borrowed scalar. *)
Definition bv_scalar_ref (o : operator) (a : list Z) (s : Z) : M (list Z) :=
  each (fun l => by_val_ref (operate dbg o) l s) a.
(** crates/ints/src/big_int.rs:580-584 [BigInt op= BigInt]: the old value of the target is dropped first. *)
Definition assign_val (op : Z -> Z -> M Z) (a b : Z) : M Z :=
  let! c := op a b in let! _ := bi_drop a in let! _ := bi_drop b in ret c.
(** vector.rs:367-379 [Vector op= Vector], 381-389 [Vector op= T]. *)
Definition bv_assign (o : operator) (a b : list Z) : M (list Z) :=
  each (fun '(l, r) => assign_val (operate dbg o) l r) (combine a b).
Definition bv_assign_scalar (o : operator) (a : list Z) (s : Z) : M (list Z) :=
  let! c := each (fun l => let! r := clone s in assign_val (operate dbg o) l r) a in let! _ := bi_drop s in ret c.

(** vector.rs:177-191 [cross]; both vectors are dropped at the end. *)
Definition bv_cross (a b : Z * Z * Z) : M (Z * Z * Z) :=
  let '(ax, ay, az) := a in let '(bx, by_, bz) := b in
  let times l r := let! p := clone l in let! q := clone r in by_op OMul p q in
  let! x1 := times ay bz in let! x2 := times az by_ in
  let! y1 := times az bx in let! y2 := times ax bz in
  let! z1 := times ax by_ in let! z2 := times ay bx in
  let! x := by_op OSub x1 x2 in let! y := by_op OSub y1 y2 in let! z := by_op OSub z1 z2 in
  let! _ := drop_all [bx; by_; bz] in let! _ := drop_all [ax; ay; az] in
  ret (x, y, z).

(** static.rs:84-105, 107-127 [+] and [-] of matrices. *)
Definition bm_op (o : operator) (a b : list (list Z)) : M (list (list Z)) :=
  each (fun '(l, r) => bv_op o l r) (combine a b).

(** static.rs:129-147 the product of matrices; both matrices are dropped at the end. *)
Definition bm_term (a b : list (list Z)) (i j k : nat) : M Z :=
  let! x := entry a i k in let! x := clone x in let! y := entry b k j in let! y := clone y in by_op OMul x y.
Fixpoint bm_sum (a b : list (list Z)) (i j : nat) (ks : list nat) (out : Z) : M Z :=
  match ks with
  | [] => ret out
  | k :: r => let! p := bm_term a b i j k in let! out := by_op OAdd out p in bm_sum a b i j r out
  end.
Definition bm_mul (row col col2 : nat) (a b : list (list Z)) : M (list (list Z)) :=
  let! c := each (fun i => each (fun j => let! out := bm_term a b i j 0 in bm_sum a b i j (seq 1 (col - 1)) out) (seq 0 col2)) (seq 0 row) in
  let! _ := drop_all (concat b) in let! _ := drop_all (concat a) in
  ret c.

(** complex.rs:59-61, 70-72 [+]; 81-83, 92-94 [-]. *)
Definition bc_op (o : operator) (a b : complex Z) : M (complex Z) :=
  let! r := by_op o (real a) (real b) in let! i := by_op o (imag a) (imag b) in ret (Cx r i).
Definition bc_scalar (o : operator) (a : complex Z) (s : Z) : M (complex Z) :=
  let! r := by_op o (real a) s in ret (Cx r (imag a)).
(** complex.rs:104-109: clones for the real part, the parts themselves for the imaginary one. *)
Definition bc_mul (a b : complex Z) : M (complex Z) :=
  let! p := clone (real a) in let! q := clone (real b) in let! p1 := by_op OMul p q in
  let! p := clone (imag a) in let! q := clone (imag b) in let! p2 := by_op OMul p q in
  let! r := by_op OSub p1 p2 in
  let! q1 := by_op OMul (real a) (imag b) in let! q2 := by_op OMul (real b) (imag a) in
  let! i := by_op OAdd q1 q2 in
  ret (Cx r i).
(** complex.rs:118-120. *)
Definition bc_mul_scalar (a : complex Z) (s : Z) : M (complex Z) :=
  let! q := clone s in let! r := by_op OMul (real a) q in
  let! i := by_op OMul (imag a) s in ret (Cx r i).
(** complex.rs:129-136. *)
Definition bc_div (a b : complex Z) : M (complex Z) :=
  let! p := clone (real b) in let! q := clone (real b) in let! d1 := by_op OMul p q in
  let! p := clone (imag b) in let! q := clone (imag b) in let! d2 := by_op OMul p q in
  let! d := by_op OAdd d1 d2 in
  let! p := clone (real a) in let! q := clone (real b) in let! p1 := by_op OMul p q in
  let! p := clone (imag a) in let! q := clone (imag b) in let! p2 := by_op OMul p q in
  let! n := by_op OAdd p1 p2 in let! d' := clone d in let! r := by_op ODiv n d' in
  let! q1 := by_op OMul (imag a) (real b) in let! q2 := by_op OMul (real a) (imag b) in
  let! m := by_op OSub q1 q2 in let! i := by_op ODiv m d in
  ret (Cx r i).
(** complex.rs:145-151; the clone [rhs.clone()] of the numerator of the real part, [self.imag * rhs] moves. [real] is cloned and
    dropped with what is left of [self] at the end. *)
Definition bc_div_scalar (a : complex Z) (s : Z) : M (complex Z) :=
  let! p := clone s in let! q := clone s in let! d := by_op OMul p q in
  let! p := clone (real a) in let! q := clone s in let! n := by_op OMul p q in
  let! d' := clone d in let! r := by_op ODiv n d' in
  let! m := by_op OMul (imag a) s in let! i := by_op ODiv m d in
  let! _ := bi_drop (real a) in
  ret (Cx r i).
End Compounds.
