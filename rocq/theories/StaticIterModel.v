(** Model of crates/static-iter/src (lib.rs, array.rs, adapter.rs, zip_all.rs).

    A [StaticIter<N>] is a value of [adapter A]: the stack of adapters over its sources.
    Sources keep a log of the indices they were asked for (not in the code; read by the
    properties only).  Closures carry their own state and may panic.  Evaluation yields a
    value, a panic, or undefined behaviour.  Dropping a partially consumed [IntoIter] leaks the
    remaining elements (it has no [Drop]); see StaticDropModel.v. *)
From Coq Require Import List Bool Arith.
From Verif Require Import Base.
Import ListNotations.

(** Outcome of evaluating Rust code that contains unsafe blocks.  No code of its own. *)
Inductive out (A : Type) := Ret (a : A) | Pan | UB.
Arguments Ret {A}. Arguments Pan {A}. Arguments UB {A}.

Definition obind {A B} (x : out A) (f : A -> out B) : out B :=
  match x with Ret a => f a | Pan => Pan | UB => UB end.

(** The iterators:
    - array.rs:24-45 [IntoIter]: one cell per element, [None] once moved out;
    - array.rs:47-65 [RefIter] (a reference to an element is modelled by the element);
    - lib.rs:227-235 [StaticRangeToIter];
    - adapter.rs:3-19 [Map], with the closure and its state;
    - adapter.rs:21-37 [Zip], also zip_all.rs:54-68 [TupleZipIter];
    - adapter.rs:39-53 [Enumerate];
    - zip_all.rs:24-37 [ArrayZipIter]. *)
Inductive adapter : Type -> Type :=
| AInto (T : Type) (cells : list (option T)) (log : list nat) : adapter T
| ARef (T : Type) (inner : list T) (log : list nat) : adapter T
| ARange (log : list nat) : adapter nat
| AMap (A B C : Type) (func : C -> A -> out (C * B)) (c : C) (inner : adapter A) : adapter B
| AZip (A B : Type) (left : adapter A) (right : adapter B) : adapter (A * B)
| AEnum (A : Type) (inner : adapter A) : adapter (nat * A)
| AZipAll (A : Type) (arrs : list (adapter A)) : adapter (list A).
Arguments AInto {T}. Arguments ARef {T}. Arguments AMap {A B C}. Arguments AZip {A B}.
Arguments AEnum {A}. Arguments AZipAll {A}.

(** array.rs:28-36 [IntoIter::new], 4-22 [into_static_iter] of arrays and array references. *)
Definition into_iter {T} (arr : list T) : adapter T := AInto (map Some arr) [].
Definition ref_iter {T} (arr : list T) : adapter T := ARef arr [].
Definition range_iter : adapter nat := ARange [].

(** lib.rs:128-147 [map], [zip], [enumerate]; zip_all.rs:17-21, 47-51 [into_zip_iter], 70-72 [zip_all]. *)
Definition it_map {A B C} (a : adapter A) (func : C -> A -> out (C * B)) (c : C) : adapter B := AMap func c a.
Definition it_zip {A B} (a : adapter A) (b : adapter B) : adapter (A * B) := AZip a b.
Definition it_enumerate {A} (a : adapter A) : adapter (nat * A) := AEnum a.
Definition zip_all {T} (arrs : list (list T)) : adapter (list T) := AZipAll (map into_iter arrs).

(** A closure without state that cannot panic.  No code of its own: what a caller writes. *)
Definition pure {A B} (f : A -> B) : unit -> A -> out (unit * B) := fun _ x => Ret (tt, f x).

(** [StaticIter::idx]: array.rs:42-44 (unchecked access and [assume_init]: undefined behaviour
    out of range or when already moved out), array.rs:62-64 (checked), lib.rs:232-234,
    adapter.rs:16-18, 34-36, 50-52, zip_all.rs:34-36, 65-67. *)
Fixpoint idx {A} (a : adapter A) (i : nat) : out (adapter A * A) :=
  match a in adapter A return out (adapter A * A) with
  | AInto cells log =>
    match nth_error cells i with
    | Some (Some v) => Ret (AInto (upd cells i None) (log ++ [i]), v)
    | _ => UB
    end
  | ARef inner log =>
    match nth_error inner i with
    | Some v => Ret (ARef inner (log ++ [i]), v)
    | None => Pan
    end
  | ARange log => Ret (ARange (log ++ [i]), i)
  | AMap func c inner =>
    obind (idx inner i) (fun '(inner', x) =>
    obind (func c x) (fun '(c', y) => Ret (AMap func c' inner', y)))
  | AZip l r =>
    obind (idx l i) (fun '(l', x) =>
    obind (idx r i) (fun '(r', y) => Ret (AZip l' r', (x, y))))
  | AEnum inner =>
    obind (idx inner i) (fun '(inner', x) => Ret (AEnum inner', (i, x)))
  | AZipAll arrs =>
    obind ((fix go l := match l with
           | [] => Ret ([], [])
           | a :: l' => obind (idx a i) (fun '(a', x) =>
                        obind (go l') (fun '(l'', xs) => Ret (a' :: l'', x :: xs)))
           end) arrs)
      (fun '(arrs', xs) => Ret (AZipAll arrs', xs))
  end.

(** ** Consumers.  [n] is the const generic [N]; the final iterator is returned for its logs. *)

(** lib.rs:150-156 [fold]: [(0..N).fold]. *)
Fixpoint fold_from {A S} (f : S -> A -> out S) (a : adapter A) (k m : nat) (s : S) : out (adapter A * S) :=
  match m with
  | O => Ret (a, s)
  | S m' => obind (idx a k) (fun '(a', x) => obind (f s x) (fun s' => fold_from f a' (Datatypes.S k) m' s'))
  end.
Definition it_fold {A S} (n : nat) (a : adapter A) (s : S) (f : S -> A -> out S) := fold_from f a 0 n s.

(** [Range::try_fold]: stops at the first break.  core, used in crates/static-iter/src/lib.rs:25, 165. *)
Fixpoint try_from {A S B} (f : S -> nat -> A -> out (S + B)) (a : adapter A) (k m : nat) (s : S)
  : out (adapter A * (S + B)) :=
  match m with
  | O => Ret (a, inl s)
  | S m' => obind (idx a k) (fun '(a', x) => obind (f s k x) (fun r =>
      match r with
      | inl s' => try_from f a' (Datatypes.S k) m' s'
      | inr b => Ret (a', inr b)
      end))
  end.

(** lib.rs:160-170 [try_fold]. *)
Definition it_try_fold {A S E} (n : nat) (a : adapter A) (s : S) (f : S -> A -> out (S + E)) :=
  try_from (fun s _ x => f s x) a 0 n s.

(** lib.rs:176-182 [any], [all]; the closure may have state. *)
Definition it_any {A C} (n : nat) (a : adapter A) (c : C) (f : C -> A -> out (C * bool)) : out (adapter A * bool) :=
  obind (it_try_fold n a c (fun c x => obind (f c x) (fun '(c', b) => Ret (if b : bool then inr tt else inl c'))))
    (fun '(a', r) => Ret (a', match r with inr tt => true | inl _ => false end)).
Definition it_all {A C} (n : nat) (a : adapter A) (c : C) (f : C -> A -> out (C * bool)) : out (adapter A * bool) :=
  obind (it_try_fold n a c (fun c x => obind (f c x) (fun '(c', b) => Ret (if b : bool then inl c' else inr tt))))
    (fun '(a', r) => Ret (a', match r with inl _ => true | inr tt => false end)).

(** lib.rs:185-197 [sum], [product]: the element's [zero]/[one] and operator as arguments. *)
Definition it_sum {A} (zero : A) (add : A -> A -> out A) (n : nat) (a : adapter A) := it_fold n a zero add.
Definition it_product {A} (one : A) (mul : A -> A -> out A) (n : nat) (a : adapter A) := it_fold n a one mul.

(** ** Collecting *)

(** lib.rs:10-31 [FromStaticIter].  [inr b] is [ControlFlow::Break]. *)
Record from_static (T C : Type) := {
  Uninit : Type;
  Break : Type;
  uninit : nat -> Uninit;
  write : Uninit -> nat -> T -> out (Uninit + Break);
  finish : (Uninit + Break) -> out C
}.
Arguments Uninit {T C}. Arguments Break {T C}. Arguments uninit {T C}.
Arguments write {T C}. Arguments finish {T C}.

(** lib.rs:24-30, the provided [from_static_iter]. *)
Definition from_static_iter {T C} (F : from_static T C) (n : nat) (a : adapter T) : out (adapter T * C) :=
  obind (try_from (fun s k x => write F s k x) a 0 n (uninit F n)) (fun '(a', r) =>
  obind (finish F r) (fun c => Ret (a', c))).

(** lib.rs:33-50 for arrays: [this[idx]] is bounds checked; [transmute_copy] of an array with
    an uninitialised element is undefined behaviour. *)
Fixpoint all_init {T} (l : list (option T)) : out (list T) :=
  match l with
  | [] => Ret []
  | Some v :: l' => obind (all_init l') (fun r => Ret (v :: r))
  | None :: _ => UB
  end.
Definition array_static (T : Type) : from_static T (list T) := {|
  Uninit := list (option T);
  Break := Empty_set;
  uninit := fun n => repeat None n;
  write := fun this i v => if Nat.ltb i (length this) then Ret (inl (upd this i (Some v))) else Pan;
  finish := fun r => match r with inl c => all_init c | inr e => match e with end end
|}.

(** lib.rs:51-53, the override for arrays: [array::from_fn], which calls in order. *)
Definition array_from_static_iter {T} (n : nat) (a : adapter T) : out (adapter T * list T) :=
  fold_from (fun l x => Ret (l ++ [x])) a 0 n [].

(** lib.rs:57-86 for [Option<C>]. *)
Definition option_static {T C} (F : from_static T C) : from_static (option T) (option C) := {|
  Uninit := Uninit F;
  Break := option (Break F);
  uninit := uninit F;
  write := fun this i v =>
    match v with
    | Some v => obind (write F this i v) (fun r => Ret (match r with inl u => inl u | inr b => inr (Some b) end))
    | None => Ret (inr None)
    end;
  finish := fun r =>
    match r with
    | inl u => obind (finish F (inl u)) (fun c => Ret (Some c))
    | inr (Some b) => obind (finish F (inr b)) (fun c => Ret (Some c))
    | inr None => Ret None
    end
|}.

(** lib.rs:88-117 for [Result<C, E>]; [inl] is [Ok], [inr] is [Err]. *)
Definition result_static {T C E} (F : from_static T C) : from_static (T + E) (C + E) := {|
  Uninit := Uninit F;
  Break := (Break F + E)%type;
  uninit := uninit F;
  write := fun this i v =>
    match v with
    | inl v => obind (write F this i v) (fun r => Ret (match r with inl u => inl u | inr b => inr (inl b) end))
    | inr e => Ret (inr (inr e))
    end;
  finish := fun r =>
    match r with
    | inl u => obind (finish F (inl u)) (fun c => Ret (inl c))
    | inr (inl b) => obind (finish F (inr b)) (fun c => Ret (inl c))
    | inr (inr e) => Ret (inr e)
    end
|}.

(** lib.rs:172-174 [collect], into arrays and into anything else. *)
Definition collect_array {T} (n : nat) (a : adapter T) := array_from_static_iter n a.
Definition collect {T C} (F : from_static T C) (n : nat) (a : adapter T) := from_static_iter F n a.

(** The logs of all sources of a stack.  No code of its own. *)
Fixpoint logs {A} (a : adapter A) : list (list nat) :=
  match a with
  | AInto _ log | ARef _ log | ARange log => [log]
  | AMap _ _ inner | AEnum inner => logs inner
  | AZip l r => logs l ++ logs r
  | AZipAll arrs => flat_map logs arrs
  end.
