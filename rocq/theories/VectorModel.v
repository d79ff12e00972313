(** Model of crates/compounds/src/vector.rs and complex.rs.

    A [Vector<T, N>] is its array: a list, of length [n] in all uses.  Operators of the element
    type are parameters; where the code calls them through static iterators they may panic. *)
From Coq Require Import List Bool.
From Verif Require Import Base StaticIterModel.
Import ListNotations.

(** Dropping the final iterator.  The end of the chains in crates/compounds/src/vector.rs:47-72, 313-328. *)
Definition value {A B} (r : out (A * B)) : out B := obind r (fun p => Ret (snd p)).

(** A binary operator as a closure over pairs.  crates/compounds/src/vector.rs:64, 313, 328. *)
Definition on_pair {A B O} (op : A -> B -> out O) : unit -> A * B -> out (unit * O) :=
  fun _ '(l, r) => obind (op l r) (fun x => Ret (tt, x)).

(** vector.rs:302-362, [Vector op Vector]: 310-316, and [Vector op &Vector]: 325-331. *)
Definition vec_op {A B O} (op : A -> B -> out O) (n : nat) (a : list A) (b : list B) : out (list O) :=
  value (collect_array n (it_map (it_zip (into_iter a) (into_iter b)) (on_pair op) tt)).
Definition vec_op_ref {A B O} (op : A -> B -> out O) (n : nat) (a : list A) (b : list B) : out (list O) :=
  value (collect_array n (it_map (it_zip (into_iter a) (ref_iter b)) (on_pair op) tt)).

(** core's [array::map] and [for_each] over zipped iterators: in order, stopping at a panic.
    crates/compounds/src/vector.rs:341, 352, 375, 385, 398, 408. *)
Fixpoint array_map {A O} (f : A -> out O) (a : list A) : out (list O) :=
  match a with
  | [] => Ret []
  | x :: a' => obind (f x) (fun y => obind (array_map f a') (fun r => Ret (y :: r)))
  end.
Fixpoint each_pair {A B} (f : A -> B -> out A) (a : list A) (b : list B) : out (list A) :=
  match a, b with
  | x :: a', y :: b' => obind (f x y) (fun x' => obind (each_pair f a' b') (fun r => Ret (x' :: r)))
  | _, _ => Ret a
  end.

(** vector.rs:340-342, 351-353 [Vector op T]. *)
Definition vec_op_scalar {A B O} (op : A -> B -> out O) (a : list A) (s : B) : out (list O) :=
  array_map (fun x => op x s) a.

(** vector.rs:364-418 the assigning operators; the result is the vector afterwards.  (A panic
    leaves a partly updated vector: VecAssignModel.v.) *)
Definition vec_assign {A B} (op : A -> B -> out A) (a : list A) (b : list B) : out (list A) := each_pair op a b.
Definition vec_assign_scalar {A B} (op : A -> B -> out A) (a : list A) (s : B) : out (list A) :=
  array_map (fun x => op x s) a.

(** vector.rs:420-452 [checked_add], [checked_sub]. *)
Definition vec_checked {A B O} (op : A -> B -> option O) (n : nat) (a : list A) (b : list B) : out (option (list O)) :=
  value (collect (option_static (array_static O)) n
    (it_map (it_zip (into_iter a) (into_iter b)) (on_pair (fun x y => Ret (op x y))) tt)).

(** vector.rs:23-36 [zeroed], [from_scalar], also 261-263 and 271-273. *)
Definition vec_scalar {T} (n : nat) (v : T) : list T := repeat v n.

(** vector.rs:39-50. *)
Definition into_row {T} (a : list T) : list (list T) := [a].
Definition into_column {T} (n : nat) (a : list T) : out (list (list T)) :=
  value (collect_array n (it_map (into_iter a) (pure (fun i => [i])) tt)).

(** vector.rs:54-60 [sum], [product]. *)
Definition vec_sum {T} (zero : T) (add : T -> T -> out T) (n : nat) (a : list T) : out T :=
  value (it_sum zero add n (into_iter a)).
Definition vec_product {T} (one : T) (mul : T -> T -> out T) (n : nat) (a : list T) : out T :=
  value (it_product one mul n (into_iter a)).

(** vector.rs:62-66 and 68-74: core iterators, [zip], [map], [fold], element by element. *)
Fixpoint zip_fold {T} (add : T -> T -> out T) (f : T -> T -> out T) (a b : list T) (acc : T) : out T :=
  match a, b with
  | x :: a', y :: b' => obind (f x y) (fun v => obind (add acc v) (zip_fold add f a' b'))
  | _, _ => Ret acc
  end.
Definition dot_product {T} (zero : T) (add mul : T -> T -> out T) (a b : list T) : out T :=
  zip_fold add mul a b zero.
Definition distance_squared {T} (zero one : T) (add sub pow : T -> T -> out T) (a b : list T) : out T :=
  obind (add one one) (fun two => zip_fold add (fun l r => obind (sub l r) (fun d => pow d two)) a b zero).

(** vector.rs:265-267 [is_zero]. *)
Definition vec_is_zero {T} (is_zero : T -> bool) (n : nat) (a : list T) : out bool :=
  value (it_all n (ref_iter a) tt (pure is_zero)).

(** vector.rs:288-300 indexing. *)
Definition vec_get {T} (a : list T) (i : nat) : out T :=
  match nth_error a i with Some v => Ret v | None => Pan end.

Definition vec_set {T} (a : list T) (i : nat) (v : T) : out (list T) :=
  if Nat.ltb i (length a) then Ret (upd a i v) else Pan.

(** vector.rs:19-21 [new], 91-93, 128-130, 195-197 [from_xy] ..., 276-286 [From]. *)
Definition vec_new {T} (arr : list T) : list T := arr.
Definition from_xy {T} (x y : T) : list T := vec_new [x; y].
Definition from_xyz {T} (x y z : T) : list T := vec_new [x; y; z].
Definition from_xyzw {T} (x y z w : T) : list T := vec_new [x; y; z; w].
Definition vec_from_array {T} (arr : list T) : list T := vec_new arr.
Definition vec_into_array {T} (a : list T) : list T := a.

(** vector.rs:95-124, 132-175, 199-257: [x], [set_x] ... on vectors of two, three and four
    elements; what is written through [x_mut] is stored as by [set_x]. *)
Definition get_x {T} (a : list T) := vec_get a 0.
Definition get_y {T} (a : list T) := vec_get a 1.
Definition get_z {T} (a : list T) := vec_get a 2.
Definition get_w {T} (a : list T) := vec_get a 3.
Definition set_x {T} (a : list T) (v : T) := vec_set a 0 v.
Definition set_y {T} (a : list T) (v : T) := vec_set a 1 v.
Definition set_z {T} (a : list T) (v : T) := vec_set a 2 v.
Definition set_w {T} (a : list T) (v : T) := vec_set a 3 v.

(** vector.rs:177-191 [cross] on [Vector<T, 3>], with operators that do not panic. *)
Definition cross {T} (sub mul : T -> T -> T) (a b : T * T * T) : T * T * T :=
  let '(ax, ay, az) := a in let '(bx, by_, bz) := b in
  let x1 := mul ay bz in let x2 := mul az by_ in
  let y1 := mul az bx in let y2 := mul ax bz in
  let z1 := mul ax by_ in let z2 := mul ay bx in
  (sub x1 x2, sub y1 y2, sub z1 z2).

(** ** complex.rs, with operators that do not panic. *)
Section Complex.
Context {T : Type} (zero one : T) (add sub mul div : T -> T -> T) (eqb : T -> T -> bool).
Record complex := Cx { real : T; imag : T }.
(** complex.rs:28-40. *)
Definition from_real (r : T) : complex := Cx r zero.
Definition from_imag (i : T) : complex := Cx zero i.
(** complex.rs:44-46. *)
Definition abs_squared (a : complex) : T := add (mul (real a) (real a)) (mul (imag a) (imag a)).
(** complex.rs:59-61, 70-72. *)
Definition c_add (a b : complex) : complex := Cx (add (real a) (real b)) (add (imag a) (imag b)).
Definition c_add_scalar (a : complex) (s : T) : complex := Cx (add (real a) s) (imag a).
(** complex.rs:81-83, 92-94. *)
Definition c_sub (a b : complex) : complex := Cx (sub (real a) (real b)) (sub (imag a) (imag b)).
Definition c_sub_scalar (a : complex) (s : T) : complex := Cx (sub (real a) s) (imag a).
(** complex.rs:104-109, 118-120. *)
Definition c_mul (a b : complex) : complex :=
  Cx (sub (mul (real a) (real b)) (mul (imag a) (imag b))) (add (mul (real a) (imag b)) (mul (real b) (imag a))).
Definition c_mul_scalar (a : complex) (s : T) : complex := Cx (mul (real a) s) (mul (imag a) s).
(** complex.rs:129-136, 145-151. *)
Definition c_div (a b : complex) : complex :=
  let divisor := add (mul (real b) (real b)) (mul (imag b) (imag b)) in
  Cx (div (add (mul (real a) (real b)) (mul (imag a) (imag b))) divisor)
     (div (sub (mul (imag a) (real b)) (mul (real a) (imag b))) divisor).
Definition c_div_scalar (a : complex) (s : T) : complex :=
  let divisor := mul s s in Cx (div (mul (real a) s) divisor) (div (mul (imag a) s) divisor).
(** complex.rs:156-177 [Zero], [One] and the derived [PartialEq] (complex.rs:7). *)
Definition c_zero : complex := Cx zero zero.
Definition c_one : complex := from_real one.
Definition c_eqb (a b : complex) : bool := eqb (real a) (real b) && eqb (imag a) (imag b).
Definition c_is_zero (a : complex) : bool := c_eqb a c_zero.
Definition c_is_one (a : complex) : bool := c_eqb a c_one.
End Complex.
Arguments complex : clear implicits.
Arguments Cx {T}.
