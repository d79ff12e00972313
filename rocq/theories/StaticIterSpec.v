(** Specification vocabulary for static iterators. *)
From Coq Require Import List.
From Verif Require Import StaticIterModel.
Import ListNotations.

(** Running a closure over a list, threading its state, without panic. *)
Inductive threads {A B C} (f : C -> A -> out (C * B)) : C -> list A -> list B -> Prop :=
| threads_nil c : threads f c [] []
| threads_cons c x c' y l l' : f c x = Ret (c', y) -> threads f c' l l' -> threads f c (x :: l) (y :: l').

(** [rows] has [m] rows; row [i] consists of element [i] of every column. *)
Definition is_transpose {T} (m : nat) (cols rows : list (list T)) : Prop :=
  length rows = m /\
  forall i row, nth_error rows i = Some row -> Forall2 (fun col x => nth_error col i = Some x) cols row.

(** [items n k a l]: after [k] of its [n] accesses, [l] is what the stack [a] still has to yield;
    [items n 0] describes a whole iterator. *)
Fixpoint items (n k : nat) {A} (a : adapter A) : list A -> Prop :=
  match a in adapter A return list A -> Prop with
  | AInto cells _ => fun l => length cells = n /\ skipn k cells = map Some l
  | ARef inner _ => fun l => length inner = n /\ skipn k inner = l
  | ARange _ => fun l => l = seq k (n - k)
  | AMap func c inner => fun l' => exists l, items n k inner l /\ threads func c l l'
  | AZip a1 a2 => fun l => exists l1 l2, items n k a1 l1 /\ items n k a2 l2 /\ l = combine l1 l2
  | AEnum inner => fun l => exists l1, items n k inner l1 /\ l = combine (seq k (n - k)) l1
  | AZipAll arrs => fun rows => exists cols,
      (fix all arrs cols := match arrs, cols with
       | [], [] => True
       | a :: arrs', c :: cols' => items n k a c /\ all arrs' cols'
       | _, _ => False
       end) arrs cols /\ is_transpose (n - k) cols rows
  end.

(** An untouched iterator over arrays of length [n], with arbitrary closures that have no
    undefined behaviour of their own. *)
Fixpoint fresh (n : nat) {A} (a : adapter A) : Prop :=
  match a with
  | AInto cells log => exists l, length l = n /\ cells = map Some l /\ log = []
  | ARef inner log => length inner = n /\ log = []
  | ARange log => log = []
  | AMap func _ inner => (forall c x, func c x <> UB) /\ fresh n inner
  | AEnum inner => fresh n inner
  | AZip l r => fresh n l /\ fresh n r
  | AZipAll arrs => (fix all l := match l with [] => True | a :: l' => fresh n a /\ all l' end) arrs
  end.

(** How many elements are looked at when stopping after the first that satisfies [p]. *)
Fixpoint looked_at {A} (p : A -> bool) (l : list A) : nat :=
  match l with [] => 0 | x :: l' => if p x then 1 else S (looked_at p l') end.

(** Every source was asked for the indices [0, 1, ..., k-1], in this order and nothing else. *)
Definition visited {A} (a : adapter A) (k : nat) : Prop := Forall (fun log => log = seq 0 k) (logs a).
