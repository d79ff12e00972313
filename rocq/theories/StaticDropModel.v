(** Who owns the elements of the arrays given to a static iterator, in crates/static-iter/src (lib.rs, array.rs, adapter.rs,
    zip_all.rs): the model of StaticIterModel.v again, but an evaluation that panics or stops early also says which state it
    leaves behind.

    Dropping a stack of adapters drops its fields.  [IntoIter] (array.rs:24-26) has no [Drop] and its cells are [MaybeUninit],
    so elements still in their cells are forgotten, not dropped.  Values in flight when a closure panics (its arguments, the left
    half of a [Zip] item, the finished items of an [ArrayZipIter] row) are ordinary values, dropped by unwinding. *)
From Coq Require Import List Bool Arith.
From Verif Require Import Base StaticIterModel VectorModel.
Import ListNotations.

(** [StaticIter::idx]: array.rs:42-44, 62-64, lib.rs:232-234, adapter.rs:16-18, 34-36, 50-52, zip_all.rs:34-36, 65-67;
    with the iterator afterwards, in every case. *)
Fixpoint idx_st {A} (a : adapter A) (i : nat) : adapter A * out A :=
  match a in adapter A return adapter A * out A with
  | AInto cells log =>
    match nth_error cells i with
    | Some (Some v) => (AInto (upd cells i None) (log ++ [i]), Ret v)
    | _ => (AInto cells log, UB)
    end
  | ARef inner log =>
    match nth_error inner i with
    | Some v => (ARef inner (log ++ [i]), Ret v)
    | None => (ARef inner log, Pan)
    end
  | ARange log => (ARange (log ++ [i]), Ret i)
  | AMap func c inner =>
    let '(inner', r) := idx_st inner i in
    match r with
    | Ret x =>
      match func c x with
      | Ret (c', y) => (AMap func c' inner', Ret y)
      | Pan => (AMap func c inner', Pan)
      | UB => (AMap func c inner', UB)
      end
    | Pan => (AMap func c inner', Pan)
    | UB => (AMap func c inner', UB)
    end
  | AZip l r =>
    let '(l', x) := idx_st l i in
    match x with
    | Ret x => let '(r', y) := idx_st r i in
      (AZip l' r', match y with Ret y => Ret (x, y) | Pan => Pan | UB => UB end)
    | Pan => (AZip l' r, Pan)
    | UB => (AZip l' r, UB)
    end
  | AEnum inner =>
    let '(inner', x) := idx_st inner i in
    (AEnum inner', match x with Ret x => Ret (i, x) | Pan => Pan | UB => UB end)
  | AZipAll arrs =>
    let '(arrs', xs) :=
      (fix go l := match l with
       | [] => ([], Ret [])
       | a :: l' =>
         let '(a', x) := idx_st a i in
         match x with
         | Ret x => let '(l'', xs) := go l' in
           (a' :: l'', match xs with Ret xs => Ret (x :: xs) | Pan => Pan | UB => UB end)
         | Pan => (a' :: l', Pan)
         | UB => (a' :: l', UB)
         end
       end) arrs in
    (AZipAll arrs', xs)
  end.

(** The loop of all consumers, [(0..N).try_fold] (lib.rs:24-28, 150-156, 160-170): the iterator, the last accumulator and
    how it ended; [Ret None] is running to the end, [Ret (Some b)] a break. *)
Fixpoint run {A S B} (f : S -> nat -> A -> out (S + B)) (a : adapter A) (k m : nat) (s : S) : adapter A * S * out (option B) :=
  match m with
  | O => (a, s, Ret None)
  | S m' =>
    let '(a', r) := idx_st a k in
    match r with
    | Ret x =>
      match f s k x with
      | Ret (inl s') => run f a' (Datatypes.S k) m' s'
      | Ret (inr b) => (a', s, Ret (Some b))
      | Pan => (a', s, Pan)
      | UB => (a', s, UB)
      end
    | Pan => (a', s, Pan)
    | UB => (a', s, UB)
    end
  end.

(** What dropping an array of [MaybeUninit] forgets.  crates/static-iter/src/lib.rs:34-38, array.rs:25. *)
Definition initialised {T} (u : list (option T)) : list T :=
  flat_map (fun o => match o with Some v => [v] | None => [] end) u.

(** lib.rs:24-30 [from_static_iter] for [Option<[T; N]>] (57-86) and [Result<[T; N], E>] (88-117): the iterator, the collected
    elements that are forgotten, the result.  [write] takes the array by value and returns nothing of it when it breaks; a
    panic of the iterator unwinds through [try_fold], which holds the array. *)
Definition collect_option {T} (n : nat) (a : adapter (option T)) : adapter (option T) * list T * out (option (list T)) :=
  let '(a', u, r) := run (fun s k x => write (option_static (array_static T)) s k x) a 0 n (repeat None n) in
  match r with
  | Ret None => (a', [], finish (option_static (array_static T)) (inl u))
  | Ret (Some b) => (a', initialised u, finish (option_static (array_static T)) (inr b))
  | Pan => (a', initialised u, Pan)
  | UB => (a', initialised u, UB)
  end.
Definition collect_result {T E} (n : nat) (a : adapter (T + E)) : adapter (T + E) * list T * out (list T + E) :=
  let '(a', u, r) := run (fun s k x => write (result_static (array_static T)) s k x) a 0 n (repeat None n) in
  match r with
  | Ret None => (a', [], finish (result_static (array_static T)) (inl u))
  | Ret (Some b) => (a', initialised u, finish (result_static (array_static T)) (inr b))
  | Pan => (a', initialised u, Pan)
  | UB => (a', initialised u, UB)
  end.

(** crates/compounds/src/vector.rs:420-452 [checked_add], [checked_sub] of vectors. *)
Definition vec_checked_st {A B O} (op : A -> B -> option O) (n : nat) (a : list A) (b : list B) :=
  collect_option n (it_map (it_zip (into_iter a) (into_iter b)) (on_pair (fun x y => Ret (op x y))) tt).
