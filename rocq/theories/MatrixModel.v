(** Model of crates/compounds/src/matrix/*.rs and bivec.rs.

    A [Matrix<T, ROW, COL>] is the list of its rows.  Dimensions and indices are natural numbers
    (for [DynMatrix] and references: 64-bit integers). *)
From Coq Require Import List Bool Arith ZArith.
From Verif Require Import Base StaticIterModel VectorModel.
Import ListNotations.

(** ** static.rs *)

(** static.rs:186-188 [Index]: both array accesses are bounds checked. *)
Definition mat_get {T} (m : list (list T)) (i j : nat) : out T :=
  obind (vec_get m i) (fun row => vec_get row j).

(** static.rs:192-194 [IndexMut] followed by an assignment. *)
Definition mat_set {T} (m : list (list T)) (i j : nat) (v : T) : out (list (list T)) :=
  obind (vec_get m i) (fun row => obind (vec_get row j) (fun _ => Ret (upd m i (upd row j v)))).

(** static.rs:43-45 [swap_rows]: [<[T]>::swap] panics when an index is out of range. *)
Definition swap_rows {T} (m : list (list T)) (a b : nat) : out (list (list T)) :=
  obind (vec_get m a) (fun x => obind (vec_get m b) (fun y => Ret (upd (upd m a y) b x))).

(** static.rs:27-41 [from_columns], [from_rows], [transpose]. *)
Definition from_columns {T} (row : nat) (vecs : list (list T)) : out (list (list T)) :=
  value (collect_array row (zip_all vecs)).
Definition from_rows {T} (row : nat) (vecs : list (list T)) : out (list (list T)) :=
  value (collect_array row (it_map (into_iter vecs) (pure (fun v => v)) tt)).
Definition transpose {T} (col : nat) (m : list (list T)) : out (list (list T)) :=
  value (collect_array col (zip_all m)).

(** static.rs:87-126 [Add], [Sub] by operator. *)
Definition mat_op {A B O} (op : A -> B -> out O) (row col : nat) (m : list (list A)) (m2 : list (list B)) : out (list (list O)) :=
  value (collect_array row (it_map (it_zip (into_iter m) (into_iter m2)) (on_pair (vec_op op col)) tt)).

(** [array::from_fn]: calls in order.  core, used in crates/compounds/src/matrix/static.rs:55, 83, 136-137, 151, 166. *)
Definition from_fn {T} (n : nat) (f : nat -> out T) : out (list T) := array_map f (seq 0 n).

(** static.rs:135-146 [Mul]: starts from the first product. *)
Definition mat_mul {T} (add mul : T -> T -> T) (row col col2 : nat) (a b : list (list T)) : out (list (list T)) :=
  from_fn row (fun i => from_fn col2 (fun j =>
    obind (mat_get a i 0) (fun x => obind (mat_get b 0 j) (fun y =>
    fold_left (fun acc k => obind acc (fun acc =>
      obind (mat_get a i k) (fun x => obind (mat_get b k j) (fun y => Ret (add acc (mul x y))))))
      (seq 1 (col - 1)) (Ret (mul x y)))))).

(** static.rs:150-152, 164-168 [zero], [one]. *)
Definition mat_zero {T} (zero : T) (row col : nat) : out (list (list T)) :=
  from_fn row (fun _ => from_fn col (fun _ => Ret zero)).
Definition mat_one {T} (zero one : T) (row col : nat) : out (list (list T)) :=
  from_fn row (fun i => from_fn col (fun j => Ret (if Nat.eqb i j then one else zero))).

(** static.rs:154-158, 170-180 [is_zero], [is_one]. *)
Definition mat_is_zero {T} (is_zero : T -> bool) (row col : nat) (m : list (list T)) : out bool :=
  value (it_all row (ref_iter m) tt (fun _ r =>
    obind (value (it_all col (ref_iter r) tt (pure is_zero))) (fun b => Ret (tt, b)))).
Definition mat_is_one {T} (is_zero is_one : T -> bool) (row col : nat) (m : list (list T)) : out bool :=
  value (it_all row (it_enumerate (ref_iter m)) tt (fun _ '(i, r) =>
    obind (value (it_all col (it_enumerate (ref_iter r)) tt
      (pure (fun '(j, v) => if Nat.eqb i j then is_one v else is_zero v)))) (fun b => Ret (tt, b)))).

(** static.rs:54-56 [diag]. *)
Definition diag {T} (n : nat) (m : list (list T)) : out (list T) := from_fn n (fun i => mat_get m i i).

(** ** macros.rs:1-49 [gauss_elim!], for any matrix type [M] with indexing and row swapping.
    [cols] and [rows] are the macro's parameters.  Element subtraction, product and negation do
    not panic; division may; a failing [partial_cmp] panics. *)
Section Gauss.
Context {T M : Type} (one : T) (sub mul : T -> T -> T) (neg : T -> T) (div : T -> T -> out T).
Context (is_zero : T -> bool) (cmp : T -> T -> option comparison).
Context (get : M -> nat -> nat -> out T) (set : M -> nat -> nat -> T -> out M) (swap : M -> nat -> nat -> out M).

(** A [for] loop over [start..start+len].  crates/compounds/src/matrix/macros.rs:10, 35, 37. *)
Fixpoint for_loop {S} (body : S -> nat -> out S) (start len : nat) (s : S) : out S :=
  match len with
  | O => Ret s
  | S len' => obind (body s start) (for_loop body (Datatypes.S start) len')
  end.

(** macros.rs:14: [(row..rows).all(..)]. *)
Fixpoint all_zero (m : M) (col start len : nat) : out bool :=
  match len with
  | O => Ret true
  | S len' => obind (get m start col) (fun v => if is_zero v then all_zero m col (S start) len' else Ret false)
  end.

(** macros.rs:20-24: the first smallest non-zero entry, with its offset; [min_by] replaces the
    current candidate only by a strictly smaller one. *)
Fixpoint min_nonzero (m : M) (col start len off : nat) (best : option (nat * T)) : out (option (nat * T)) :=
  match len with
  | O => Ret best
  | S len' => obind (get m start col) (fun v =>
      if is_zero v then min_nonzero m col (S start) len' (S off) best
      else match best with
           | None => min_nonzero m col (S start) len' (S off) (Some (off, v))
           | Some (_, b) =>
             match cmp b v with
             | None => Pan
             | Some Gt => min_nonzero m col (S start) len' (S off) (Some (off, v))
             | Some _ => min_nonzero m col (S start) len' (S off) best
             end
           end)
  end.

(** macros.rs:35-40. *)
Definition eliminate (cols col row : nat) (top : T) (m : M) (r : nat) : out M :=
  obind (get m r col) (fun v => obind (div v top) (fun factor =>
  for_loop (fun m c => obind (get m r c) (fun x => obind (get m row c) (fun y => set m r c (sub x (mul y factor)))))
    col (cols - col) m)).

(** macros.rs:10-44, one column; the state is the matrix, the sign and the current row. *)
Definition gauss_col (cols rows : nat) (st : M * T * nat) (col : nat) : out (M * T * nat) :=
  let '(m, factor, row) := st in
  obind (all_zero m col row (rows - row)) (fun z =>
  if z then Ret st else
  obind (min_nonzero m col row (rows - row) 0 None) (fun best =>
  match best with
  | None => Pan
  | Some (off, _) =>
    let small := off + row in
    obind (if Nat.eqb small row then Ret (m, factor)
           else obind (swap m small row) (fun m' => Ret (m', neg factor))) (fun '(m, factor) =>
    obind (get m row col) (fun top =>
    obind (for_loop (eliminate cols col row top) (S row) (rows - S row) m) (fun m =>
    Ret (m, factor, S row))))
  end)).

Definition gauss_elim (cols rows : nat) (m : M) : out (M * T) :=
  obind (for_loop (gauss_col cols rows) 0 cols (m, one, 0)) (fun '(m, factor, _) => Ret (m, factor)).
End Gauss.

(** static.rs:49: the macro is given [ROW] for its [$cols] and [COL] for its [$rows]. *)
Section Static.
Context {T : Type} (one : T) (sub mul : T -> T -> T) (neg : T -> T) (div : T -> T -> out T).
Context (is_zero : T -> bool) (cmp : T -> T -> option comparison).
Definition static_gauss (row col : nat) (m : list (list T)) : out (list (list T) * T) :=
  gauss_elim one sub mul neg div is_zero cmp mat_get mat_set swap_rows row col m.
(** macros.rs:53-55. *)
Definition static_row_reduce (row col : nat) (m : list (list T)) : out (list (list T)) :=
  obind (static_gauss row col m) (fun r => Ret (fst r)).
(** static.rs:60-75. *)
Definition determinant (n : nat) (m : list (list T)) : out T :=
  match n with
  | 1 => mat_get m 0 0
  | 2 => obind (mat_get m 0 0) (fun a => obind (mat_get m 1 1) (fun d =>
         obind (mat_get m 1 0) (fun c => obind (mat_get m 0 1) (fun b => Ret (sub (mul a d) (mul c b))))))
  | _ => obind (static_gauss n n m) (fun '(reduced, factor) =>
         obind (diag n reduced) (fun d =>
         obind (vec_product one (fun x y => Ret (mul x y)) n d) (fun p => div p factor)))
  end.
End Static.

(** ** dynamic.rs: data in row-major order, sizes as 64-bit integers. *)

Definition usize_max : Z := 18446744073709551615.
(** [usize] arithmetic: panics on overflow in builds with overflow checks, wraps otherwise.
    Rust's operators, used in crates/compounds/src/matrix/dynamic.rs:51 and refs.rs:20, 97. *)
Definition usize (dbg : bool) (v : Z) : out Z :=
  if (v <=? usize_max)%Z then Ret v else if dbg then Pan else Ret (v mod (usize_max + 1))%Z.

Record dyn (T : Type) := Dyn { data : list T; rows : Z; cols : Z }.
Arguments Dyn {T}. Arguments data {T}. Arguments rows {T}. Arguments cols {T}.

(** [slice[i]] for a 64-bit index. *)
Definition slice_get {T} (l : list T) (i : Z) : out T :=
  if (i <? Z.of_nat (length l))%Z then vec_get l (Z.to_nat i) else Pan.

(** dynamic.rs:14-26 [DynMatrix::new]. *)
Definition dyn_new {T} (dbg : bool) (l : list T) (r c : Z) : out (dyn T) :=
  obind (usize dbg (r * c)) (fun n => if (Z.of_nat (length l) =? n)%Z then Ret (Dyn l r c) else Pan).

(** The offset expression [index.0 * self.cols + index.1] of dynamic.rs:72 and refs.rs:20. *)
Definition offset (dbg : bool) (c i j : Z) : out Z :=
  obind (usize dbg (i * c)) (fun p => usize dbg (p + j)).

(** dynamic.rs:71-73, 77-79. *)
Definition dyn_get {T} (dbg : bool) (d : dyn T) (i j : Z) : out T :=
  obind (offset dbg (cols d) i j) (slice_get (data d)).
Definition dyn_set {T} (dbg : bool) (d : dyn T) (i j : Z) (v : T) : out (dyn T) :=
  obind (offset dbg (cols d) i j) (fun k =>
  obind (slice_get (data d) k) (fun _ => Ret (Dyn (upd (data d) (Z.to_nat k) v) (rows d) (cols d)))).

(** [&slice[a..b]]; panics unless [a <= b <= len].  core, used in crates/compounds/src/matrix/dynamic.rs:51-52. *)
Definition subslice {T} (l : list T) (a b : Z) : out (list T) :=
  if ((a <=? b) && (b <=? Z.of_nat (length l)))%Z
  then Ret (firstn (Z.to_nat (b - a)) (skipn (Z.to_nat a) l)) else Pan.

(** dynamic.rs:44-54 [swap_rows].  [split_at_mut] panics when the position is past the end;
    [swap_with_slice] panics when lengths differ (here they cannot). *)
Definition dyn_swap_rows {T} (dbg : bool) (d : dyn T) (a b : Z) : out (dyn T) :=
  if (a =? b)%Z then Ret d else
  let l := Z.min a b in let r := Z.max a b in
  obind (usize dbg (r * cols d)) (fun p =>
  if (Z.of_nat (length (data d)) <? p)%Z then Pan else
  let start := firstn (Z.to_nat p) (data d) in
  let end_ := skipn (Z.to_nat p) (data d) in
  obind (usize dbg (l * cols d)) (fun s =>
  obind (usize dbg (l + 1)) (fun l1 =>
  obind (usize dbg (l1 * cols d)) (fun e =>
  obind (subslice start s e) (fun x =>
  obind (subslice end_ 0 (cols d)) (fun y =>
  if Nat.eqb (length x) (length y) then
    Ret (Dyn (firstn (Z.to_nat s) start ++ y ++ skipn (Z.to_nat s + length x) start ++ x ++ skipn (length y) end_)
          (rows d) (cols d))
  else Pan)))))).

(** dynamic.rs:63-65 [From<[[T; COL]; ROW]>]. *)
Definition dyn_from {T} (dbg : bool) (row col : nat) (m : list (list T)) : out (dyn T) :=
  dyn_new dbg (concat m) (Z.of_nat row) (Z.of_nat col).

(** dynamic.rs:57-60: the macro is given [rows] for [$cols] and [cols] for [$rows]. *)
Section DynGauss.
Context {T : Type} (one : T) (sub mul : T -> T -> T) (neg : T -> T) (div : T -> T -> out T).
Context (is_zero : T -> bool) (cmp : T -> T -> option comparison) (dbg : bool).
Definition dyn_gauss (d : dyn T) : out (dyn T * T) :=
  gauss_elim one sub mul neg div is_zero cmp
    (fun d i j => dyn_get dbg d (Z.of_nat i) (Z.of_nat j))
    (fun d i j v => dyn_set dbg d (Z.of_nat i) (Z.of_nat j) v)
    (fun d i j => dyn_swap_rows dbg d (Z.of_nat i) (Z.of_nat j))
    (Z.to_nat (rows d)) (Z.to_nat (cols d)) d.
Definition dyn_row_reduce (d : dyn T) : out (dyn T) := obind (dyn_gauss d) (fun r => Ret (fst r)).
End DynGauss.

(** ** refs.rs: a pointer (the buffer it points to) and the sizes. *)
Record mref (T : Type) := MRef { buf : list T; mrows : Z; mcols : Z }.
Arguments MRef {T}. Arguments buf {T}. Arguments mrows {T}. Arguments mcols {T}.

(** refs.rs:54-65, 101-114: from static and dynamic matrices. *)
Definition ref_static {T} (row col : nat) (m : list (list T)) : mref T := MRef (concat m) (Z.of_nat row) (Z.of_nat col).
Definition ref_dyn {T} (d : dyn T) : mref T := MRef (data d) (rows d) (cols d).

(** Dereferencing [ptr.add(k)]: undefined behaviour outside the buffer.  crates/compounds/src/matrix/refs.rs:20, 97. *)
Definition deref {T} (l : list T) (k : Z) : out T :=
  if (k <? Z.of_nat (length l))%Z then match nth_error l (Z.to_nat k) with Some v => Ret v | None => UB end else UB.

(** refs.rs:11-21 [Index]. *)
Definition ref_get {T} (dbg : bool) (r : mref T) (i j : Z) : out T :=
  if ((mrows r <? i) || (mcols r <? j))%Z then Pan
  else obind (offset dbg (mcols r) i j) (deref (buf r)).

(** refs.rs:88-98 [IndexMut], read and assigned through. *)
Definition mut_get {T} (dbg : bool) (r : mref T) (i j : Z) : out T :=
  if ((i <? mrows r) && (j <? mcols r))%Z then obind (offset dbg (mcols r) i j) (deref (buf r)) else Pan.
Definition mut_set {T} (dbg : bool) (r : mref T) (i j : Z) (v : T) : out (mref T) :=
  if ((i <? mrows r) && (j <? mcols r))%Z
  then obind (offset dbg (mcols r) i j) (fun k => obind (deref (buf r) k) (fun _ =>
       Ret (MRef (upd (buf r) (Z.to_nat k) v) (mrows r) (mcols r))))
  else Pan.

(** ** bivec.rs *)

(** bivec.rs:22-32, the loop of [choose_n]; recursion on [r]. *)
Fixpoint choose_loop (dbg : bool) (n : Z) (r : nat) (out_ denom : Z) : out (Z * Z) :=
  match r with
  | O => Ret (out_, denom)
  | S r' =>
    obind (usize dbg (out_ * n)) (fun o =>
    obind (usize dbg (denom * Z.of_nat r)) (fun d =>
    if (d =? 0)%Z then Pan else
    let '(o, d) := if (o mod d =? 0)%Z then (o / d, 1)%Z else (o, d) in
    choose_loop dbg (n - 1) r' o d))
  end.

(** bivec.rs:15-35 [choose_n]. *)
Definition choose_n (dbg : bool) (n : Z) (r : nat) : out Z :=
  if (n <? Z.of_nat r)%Z then Ret 0%Z else
  obind (choose_loop dbg n r 1 1) (fun '(o, d) => if (d =? 0)%Z then Pan else Ret (o / d)%Z).

(** bivec.rs:45-63 [BiVector::new], also vector.rs:84-86 [wedge]. *)
Section BiVector.
Context {T : Type} (one : T) (sub mul : T -> T -> T) (neg : T -> T) (div : T -> T -> out T).
Context (is_zero : T -> bool) (cmp : T -> T -> option comparison) (dbg : bool).
Definition bivec_new (dim : nat) (a b : list T) : out (list T) :=
  obind (choose_n dbg (Z.of_nat dim) 2) (fun capacity =>
  obind (for_loop (fun comps i =>
    for_loop (fun comps j =>
      obind (vec_get a i) (fun ai => obind (vec_get b i) (fun bi =>
      obind (vec_get a j) (fun aj => obind (vec_get b j) (fun bj =>
      obind (determinant one sub mul neg div is_zero cmp 2 [[ai; bi]; [aj; bj]]) (fun comp =>
      Ret (comps ++ [comp])))))))
      (S i) (dim - S i) comps) 0 dim []) (fun comps =>
  if (Z.of_nat (length comps) =? capacity)%Z then Ret comps else Pan)).
End BiVector.
