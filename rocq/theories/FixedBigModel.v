(** Model of crates/reals/src/fixed.rs for [Fixed<BigInt, N>]: a fixed-point number whose backing
    integer is a [BigInt].  A value is a BigInt handle; the operations run in the interner store of
    BigIntModel.v and take ownership of their operands (clones and drops are those of the Rust code).
    FixedModel.v is the same code over primitives.  [pow] and [log] are [todo!()]; [Debug] needs
    conversions that [BigInt] does not implement. *)
From Coq Require Import ZArith List Bool.
From Verif Require Import Base BitSliceModel InternModel BigIntModel.
Import ListNotations.
Local Open Scope Z_scope.

Section FixedBig.
Variables (dbg : bool) (N : nat).

(** [x << N] and [x >> N], the shifts by a [usize] (crates/ints/src/big_int/macros.rs:31-37). *)
Definition fb_shl (x : Z) : M Z := op_int dbg (bi_shl dbg) t_usize x (Z.of_nat N).
Definition fb_shr (x : Z) : M Z := op_int dbg (bi_shr dbg) t_usize x (Z.of_nat N).

(** fixed.rs:182-190 [One]. *)
Definition fb_one : M Z := let! o := lift bi_one in fb_shl o.
Definition fb_is_one (x : Z) : M bool :=
  let! o := fb_one in
  let! e := reads (fun st => bi_eq st x o) in
  let! _ := bi_drop o in
  ret e.

(** fixed.rs:172-180 [Zero] (also 23-25 [new]). *)
Definition fb_zero : M Z := lift bi_new.
Definition fb_is_zero (x : Z) : bool := bi_is_zero x.

(** fixed.rs:13-15 [mask]. *)
Definition fb_mask : M Z :=
  let! o := lift bi_one in
  let! a := fb_shl o in
  let! b := lift bi_one in
  by_val (bi_sub dbg) a b.

(** fixed.rs:27-29 [from_val]. *)
Definition fb_from_val (v : Z) : M Z := fb_shl v.

(** fixed.rs:35-37 [is_whole], which borrows. *)
Definition fb_is_whole (x : Z) : M bool :=
  let! c := bi_clone dbg x in
  let! m := fb_mask in
  let! n := bi_not dbg m in
  let! b := by_val (bi_bitand dbg) c n in
  let! e := reads (fun st => bi_eq st b x) in
  let! _ := bi_drop b in
  ret e.

(** fixed.rs:96-114 [eq], [cmp] (and [partial_cmp]), which borrow. *)
Definition fb_eq (st : istore) (x y : Z) : res bool := bi_eq st x y.
Definition fb_cmp (st : istore) (x y : Z) : res comparison := bi_cmp st x y.

(** fixed.rs:116-162, the operators act on the raw values. *)
Definition fb_add (x y : Z) : M Z := by_val (bi_add dbg) x y.
Definition fb_sub (x y : Z) : M Z := by_val (bi_sub dbg) x y.
Definition fb_mul (x y : Z) : M Z := by_val (bi_mul dbg) x y.
Definition fb_div (x y : Z) : M Z := by_val (bi_div dbg) x y.
Definition fb_rem (x y : Z) : M Z := by_val (bi_rem dbg) x y.
Definition fb_neg (x : Z) : Z := bi_neg x.

(** fixed.rs:214-226 [Signed]. *)
Definition fb_abs (x : Z) : Z := bi_abs x.
Definition fb_is_positive (x : Z) : bool := is_positive x.
Definition fb_is_negative (x : Z) : bool := is_negative x.

(** fixed.rs:232-234 [floor]. *)
Definition fb_floor (x : Z) : M Z := let! a := fb_shr x in fb_shl a.

(** fixed.rs:236-242 [ceil]. *)
Definition fb_ceil (x : Z) : M Z :=
  let! w := fb_is_whole x in
  if (w : bool) then fb_floor x
  else let! f := fb_floor x in let! o := fb_one in fb_add f o.

(** fixed.rs:263-265 [fract]. *)
Definition fb_fract (x : Z) : M Z := let! o := fb_one in fb_rem x o.

(** fixed.rs:259-261 [trunc]. *)
Definition fb_trunc (x : Z) : M Z :=
  let! c := bi_clone dbg x in
  let! f := fb_fract x in
  fb_sub c f.

(** fixed.rs:244-257 [round]; [f >= zero] is "[cmp] is not [Lt]", [f > half] is "[cmp] is [Gt]";
    [half] and [f] are dropped at the end. *)
Definition fb_round (x : Z) : M Z :=
  let! o1 := fb_one in
  let! o2 := fb_one in
  let! o3 := fb_one in
  let! two := fb_add o2 o3 in
  let! half := fb_div o1 two in
  let! c := bi_clone dbg x in
  let! f0 := fb_fract c in
  let! z := fb_zero in
  let! s := reads (fun st => fb_cmp st f0 z) in
  let! _ := bi_drop z in
  let! f := (match s with
             | Lt => let! o := fb_one in fb_sub o f0
             | _ => ret f0
             end) in
  let! g := reads (fun st => fb_cmp st f half) in
  let! r := (match g with Gt => fb_ceil x | _ => fb_floor x end) in
  let! _ := bi_drop f in
  let! _ := bi_drop half in
  ret r.

End FixedBig.
