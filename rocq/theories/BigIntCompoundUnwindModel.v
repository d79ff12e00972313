(** The operations of BigIntCompoundModel.v when an element operation panics and the program catches the panic: the same calls, with
    the frames that own BigInts while a panic passes through (BigIntUnwindModel.v).

    Owners: core::array::from_fn and the [map] of arrays drop the results they have (core, not part of the repository); the [map] of
    arrays and core::array::IntoIter drop the elements they have not given away; the iterators of crates/static-iter/src/array.rs:24-44
    keep theirs as [MaybeUninit] and drop nothing. *)
From Coq Require Import ZArith List Bool.
From Verif Require Import Base BitSliceModel InternModel BigIntModel BigIntRun BigIntUnwindModel VectorModel BigIntCompoundModel.
Import ListNotations.

(** [m] runs in frames that own [hs].  No code of its own: what unwinding drops. *)
Definition owning_all {A} (hs : list Z) (m : U A) : U A := fold_right owning m hs.

(** crates/static-iter/src/lib.rs:51-53 [from_static_iter] and core::array::from_fn: the results so far are dropped. *)
Fixpoint u_collect {A B} (parts : B -> list Z) (f : A -> U B) (done : list B) (l : list A) : U (list B) :=
  match l with
  | [] => uret done
  | x :: r => let? y := owning_all (concat (map parts done)) (f x) in u_collect parts f (done ++ [y]) r
  end.
(** core's [map] of arrays: so are the elements not yet given to [f].  crates/compounds/src/vector.rs:341, 352. *)
Fixpoint u_map (f : Z -> U Z) (done l : list Z) : U (list Z) :=
  match l with
  | [] => uret done
  | x :: r => let? y := owning_all (done ++ r) (f x) in u_map f (done ++ [y]) r
  end.
(** [iter_mut] with [for_each]: [f] replaces one element; the vector stays with the caller, with the elements replaced so far.  [later]
    are the values of the other operand that its iterator still owns.  crates/compounds/src/vector.rs:375, 385, 398, 408. *)
Fixpoint u_update {A} (f : Z -> A -> U Z) (later : list A -> list Z) (done : list Z) (l : list (Z * A)) (st : istore) : list Z * ending unit :=
  match l with
  | [] => (done, Returned tt st)
  | (x, y) :: r =>
    match owning_all (later (map snd r)) (f x y) st with
    | Returned c st' => u_update f later (done ++ [c]) r st'
    | Unwound st' => (done ++ x :: map fst r, Unwound st')
    | Aborted => (done ++ x :: map fst r, Aborted)
    | Starved => (done ++ x :: map fst r, Starved)
    end
  end.
Fixpoint u_drop_all (l : list Z) : U unit :=
  match l with
  | [] => uret tt
  | x :: r => let? _ := u_drop x in u_drop_all r
  end.

Section Compounds.
Context (dbg : bool).
Notation by_op o := (u_by_val (u_operate dbg o)).
Notation clone h := (leaf (bi_clone dbg h)).

(** vector.rs:303-317, 319-333. *)
Definition uv_op (o : operator) (a b : list Z) : U (list Z) := u_collect (fun h => [h]) (fun '(l, r) => by_op o l r) [] (combine a b).
Definition uv_op_ref (o : operator) (a b : list Z) : U (list Z) :=
  u_collect (fun h => [h]) (fun '(l, r) => u_by_val_ref (u_operate dbg o) l r) [] (combine a b).
(** vector.rs:335-344, 346-355. *)
Definition uv_scalar (o : operator) (a : list Z) (s : Z) : U (list Z) :=
  let? c := owning s (u_map (fun l => let? r := owning l (clone s) in by_op o l r) [] a) in let? _ := u_drop s in uret c.
Definition uv_scalar_ref (o : operator) (a : list Z) (s : Z) : U (list Z) :=
  u_map (fun l => u_by_val_ref (u_operate dbg o) l s) [] a.

(** crates/ints/src/big_int.rs:574-590 [op=] with an owned and a borrowed right-hand side: the target keeps its value on a panic. *)
Definition u_assign_val (op : Z -> Z -> U Z) (x y : Z) : U Z :=
  let? c := owning y (op x y) in let? _ := u_drop x in let? _ := u_drop y in uret c.
Definition u_assign_ref (op : Z -> Z -> U Z) (x y : Z) : U Z := let? c := op x y in let? _ := u_drop x in uret c.
(** vector.rs:367-379, 391-404, 381-389, 406-416. *)
Definition uv_assign (o : operator) (a b : list Z) : istore -> list Z * ending unit :=
  u_update (u_assign_val (u_operate dbg o)) (fun l => l) [] (combine a b).
Definition uv_assign_ref (o : operator) (a b : list Z) : istore -> list Z * ending unit :=
  u_update (u_assign_ref (u_operate dbg o)) (fun _ => []) [] (combine a b).
Definition uv_assign_scalar (o : operator) (a : list Z) (s : Z) (st : istore) : list Z * ending unit :=
  let upd := u_update (fun x s => let? y := clone s in u_assign_val (u_operate dbg o) x y) (fun _ => []) [] (map (fun x => (x, s)) a) in
  (fst (upd st), (let? _ := owning s (fun st => snd (upd st)) in u_drop s) st).
Definition uv_assign_scalar_ref (o : operator) (a : list Z) (s : Z) : istore -> list Z * ending unit :=
  u_update (u_assign_ref (u_operate dbg o)) (fun _ => []) [] (map (fun x => (x, s)) a).

(** static.rs:129-147 the product of matrices; an index can be out of range (a matrix without columns). *)
Definition um_term (a b : list (list Z)) (i j k : nat) : U Z :=
  let? x := leaf (entry a i k) in let? x := clone x in
  let? y := owning x (leaf (entry b k j)) in let? y := owning x (clone y) in by_op OMul x y.
Fixpoint um_sum (a b : list (list Z)) (i j : nat) (ks : list nat) (out : Z) : U Z :=
  match ks with
  | [] => uret out
  | k :: r => let? p := owning out (um_term a b i j k) in let? out := by_op OAdd out p in um_sum a b i j r out
  end.
Definition um_mul (row col col2 : nat) (a b : list (list Z)) : U (list (list Z)) :=
  let? c := owning_all (concat a ++ concat b)
    (u_collect (fun r => r) (fun i =>
       u_collect (fun h => [h]) (fun j => let? out := um_term a b i j 0 in um_sum a b i j (seq 1 (col - 1)) out) [] (seq 0 col2)) [] (seq 0 row)) in
  let? _ := u_drop_all (concat b) in let? _ := u_drop_all (concat a) in
  uret c.

(** complex.rs:59-61, 81-83; 118-120. *)
Definition uc_op (o : operator) (a b : complex Z) : U (complex Z) :=
  let? r := owning_all [imag a; imag b] (by_op o (real a) (real b)) in let? i := owning r (by_op o (imag a) (imag b)) in uret (Cx r i).
(** A product of two clones, while [hs] are owned.  crates/compounds/src/matrix/static.rs:138-140, crates/compounds/src/vector.rs:64. *)
Definition u_times (hs : list Z) (l r : Z) : U Z :=
  let? p := owning_all hs (clone l) in let? q := owning_all (p :: hs) (clone r) in owning_all hs (by_op OMul p q).
(** complex.rs:104-109. *)
Definition uc_mul (a b : complex Z) : U (complex Z) :=
  let hs := [real a; imag a; real b; imag b] in
  let? p1 := u_times hs (real a) (real b) in let? p2 := u_times (p1 :: hs) (imag a) (imag b) in
  let? r := owning_all hs (by_op OSub p1 p2) in
  let? q1 := owning_all [r; imag a; real b] (by_op OMul (real a) (imag b)) in
  let? q2 := owning_all [q1; r] (by_op OMul (real b) (imag a)) in
  let? i := owning r (by_op OAdd q1 q2) in
  uret (Cx r i).
(** complex.rs:129-136. *)
Definition uc_div (a b : complex Z) : U (complex Z) :=
  let hs := [real a; imag a; real b; imag b] in
  let? d1 := u_times hs (real b) (real b) in let? d2 := u_times (d1 :: hs) (imag b) (imag b) in
  let? d := owning_all hs (by_op OAdd d1 d2) in
  let? p1 := u_times (d :: hs) (real a) (real b) in let? p2 := u_times (p1 :: d :: hs) (imag a) (imag b) in
  let? n := owning_all (d :: hs) (by_op OAdd p1 p2) in let? d' := owning_all (n :: d :: hs) (clone d) in
  let? r := owning_all (d :: hs) (by_op ODiv n d') in
  let? q1 := owning_all [r; d; real a; imag b] (by_op OMul (imag a) (real b)) in
  let? q2 := owning_all [q1; r; d] (by_op OMul (real a) (imag b)) in
  let? m := owning_all [r; d] (by_op OSub q1 q2) in let? i := owning r (by_op ODiv m d) in
  uret (Cx r i).
(** complex.rs:145-151. *)
Definition uc_div_scalar (a : complex Z) (s : Z) : U (complex Z) :=
  let hs := [real a; imag a; s] in
  let? d := u_times hs s s in let? n := u_times (d :: hs) (real a) s in
  let? d' := owning_all (n :: d :: hs) (clone d) in let? r := owning_all (d :: hs) (by_op ODiv n d') in
  let? m := owning_all [r; d; real a] (by_op OMul (imag a) s) in let? i := owning_all [r; real a] (by_op ODiv m d) in
  let? _ := u_drop (real a) in
  uret (Cx r i).
End Compounds.
