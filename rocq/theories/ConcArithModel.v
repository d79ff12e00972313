(** Arithmetic on BigInts by several threads.  The arithmetic of BigIntModel.v is one function from store to store; here the same
    code is written as a program that stops at every call of the interner, so that calls of different threads can interleave.
    [alone] runs such a program with nobody else around; that it is then the code of BigIntModel.v is C168_same_code.
    Simplified as ConcBigIntModel.v and ConcInternModel.v; in particular a slice that [get] returned is read as a whole
    in the step in which [get] reads it. *)
From Coq Require Import ZArith List Bool.
From Verif Require Import Base BitSliceModel ElementModel BitwiseModel InternModel BigIntModel BigIntRun BigIntExprModel ConcInternModel ConcBigIntModel.
Import ListNotations.
Local Open Scope Z_scope.

(** A program that ends with [r], or makes a call of the interner and goes on with what it returned: [get], [add], [incr],
    [decr] (crates/utils/src/intern.rs:166-193). *)
Inductive prog (A : Type) :=
| PStop (r : res A)
| PGet (k : Z) (f : list Z -> prog A)
| PAdd (l : list Z) (f : Z -> prog A)
| PIncr (k : Z) (p : prog A)
| PDecr (k : Z) (p : prog A).
Arguments PStop {A}. Arguments PGet {A}. Arguments PAdd {A}. Arguments PIncr {A}. Arguments PDecr {A}.

(** State-passing plumbing (not part of the crate).  No code. *)
Definition pret {A} (a : A) : prog A := PStop (Ok a).
Fixpoint pbind {A B} (p : prog A) (g : A -> prog B) : prog B :=
  match p with
  | PStop (Ok a) => g a
  | PStop Panic => PStop Panic
  | PStop Timeout => PStop Timeout
  | PGet k f => PGet k (fun l => pbind (f l) g)
  | PAdd l f => PAdd l (fun k => pbind (f k) g)
  | PIncr k p => PIncr k (pbind p g)
  | PDecr k p => PDecr k (pbind p g)
  end.
Notation "'let%' x := e1 'in' e2" := (pbind e1 (fun x => e2))
  (at level 200, x pattern, e1 at level 100, e2 at level 200, right associativity).

(** The program run by one thread while no other uses the interner: the calls as in InternModel.v.
    No code of its own: crates/utils/src/intern.rs:92-193 without other threads. *)
Fixpoint alone {A} (dbg : bool) (p : prog A) : M A :=
  match p with
  | PStop r => lift r
  | PGet k f => fun st => do l <- intern_get st k ;; alone dbg (f l) st
  | PAdd l f => let! k := intern_add list_eqb dbg l in alone dbg (f k)
  | PIncr k p => fun st => do st' <- intern_incr dbg k st ;; alone dbg p st'
  | PDecr k p => fun st => do st' <- intern_decr k st ;; alone dbg p st'
  end.

(** ** The code of crates/ints/src/big_int.rs once more *)

(** big_int.rs:147-154 and 131-136 [val().slice()]. *)
Definition p_slice (a : Z) : prog (list Z) :=
  if is_inline a then pret [to_offset a] else PGet (to_offset a) pret.

(** big_int.rs:191-201 [new_slice], 180-189 [new_intern]. *)
Definition p_new_slice (l : list Z) (neg : bool) : prog Z :=
  let% l := PStop (shrink l) in
  if Nat.eqb (length l) 1 && (zget l 0 <=? max_offset) then PStop (new_inline (zget l 0) neg)
  else PAdd l (fun k => PStop (to_new k (if neg then TNeg else TNone))).

(** big_int.rs:324-332 [Clone] and 334-341 [Drop]. *)
Definition p_clone (a : Z) : prog Z := if is_inline a then pret a else PIncr (to_offset a) (pret a).
Definition p_drop (a : Z) : prog unit := if is_inline a then pret tt else PDecr (to_offset a) (pret tt).

(** big_int.rs:369-399 [Ord::cmp]. *)
Definition p_cmp (a b : Z) : prog comparison :=
  if a =? b then pret Datatypes.Eq
  else if is_negative a && is_positive b then pret Lt
  else if is_positive a && is_negative b then pret Gt
  else
    let% la := p_slice a in
    let% lb := p_slice b in
    let out :=
      if negb (Nat.eqb (length la) (length lb)) then Nat.compare (length la) (length lb)
      else low_first la lb in
    pret (if is_negative a then CompOpp out else out).

(** big_int/macros.rs:45-64 [From]. *)
Definition p_from (dbg : bool) (t : ity) (v : Z) : prog Z :=
  let% arr := PStop (int_to_arr dbg 64 (arr_size t) (Z.abs v)) in
  p_new_slice arr (isigned t && (v <? 0)).

(** big_int/macros.rs:82-110 [TryFrom<&BigInt>]. *)
Definition p_try_from (dbg : bool) (t : ity) (a : Z) : prog (Z + side) :=
  let% m := p_from dbg t (imax t) in
  let% c := p_cmp a m in
  let% _ := p_drop m in
  match c with
  | Gt => pret (inr Above)
  | _ =>
    let% m := p_from dbg t (imin t) in
    let% c := p_cmp a m in
    let% _ := p_drop m in
    match c with
    | Lt => pret (inr Below)
    | _ =>
      let% l := p_slice a in
      let% o := PStop (arr_to_int dbg 64 t l) in
      pret (match o with Some v => inl v | None => inr Above end)
    end
  end.

(** big_int/macros.rs:162-183 [PartialEq] and 185-195 [PartialOrd] with the [i32] of [pow]. *)
Definition p_eq_i32 (dbg : bool) (a v : Z) : prog bool :=
  if negb (Bool.eqb (is_negative a) (v <? 0)) then pret false
  else
    let% m := PStop (if v =? imin t_i32 then (if dbg then Panic else Ok v) else Ok (Z.abs v)) in
    let% l := p_slice a in
    let% arr := PStop (int_to_arr dbg 64 (arr_size t_i32) (m mod 2 ^ Z.of_nat (ibits t_i32))) in
    let% arr := PStop (shrink arr) in
    pret (list_eqb l arr).
Definition p_cmp_int (dbg : bool) (t : ity) (a v : Z) : prog comparison :=
  let% b := p_from dbg t v in
  let% c := p_cmp a b in
  let% _ := p_drop b in
  pret c.

(** The limbs and the sign of the result, from the limbs and the signs of the operands: big_int.rs:433-494 and 510-529 without
    reading the operands and making the result.  (The shifts are below.) *)
Definition limbs (dbg : bool) (o : operator) (a b : Z) (la lb : list Z) : res (list Z * bool) :=
  let differ := negb (Bool.eqb (is_negative a) (is_negative b)) in
  match o with
  | OAdd =>
    match is_positive a, is_positive b with
    | true, true | false, false => do out <- elem_add 64 la lb ;; Ok (out, is_negative a)
    | true, _ => elem_sub 64 la lb
    | _, true => do (out, neg) <- elem_sub 64 la lb ;; Ok (out, negb neg)
    end
  | OSub =>
    match is_positive a, is_positive b with
    | true, false | false, true => do out <- elem_add 64 la lb ;; Ok (out, is_negative a)
    | true, true => elem_sub 64 la lb
    | false, false => do (out, neg) <- elem_sub 64 la lb ;; Ok (out, negb neg)
    end
  | OMul => do out <- elem_mul 64 la lb ;; Ok (out, differ)
  | ODiv => do (q, r) <- bit_div_long dbg 64 la lb ;; Ok (q, differ)
  | ORem => do (q, r) <- bit_div_long dbg 64 la lb ;; Ok (r, differ)
  | OAnd => Ok (elem_bitop Z.land la lb, is_negative a)
  | OOr => Ok (elem_bitop Z.lor la lb, is_negative a)
  | OXor => Ok (elem_bitop Z.lxor la lb, is_negative a)
  | OShl | OShr => Panic
  end.

(** The shift amount: [usize::try_from(rhs).expect(..)].  crates/ints/src/big_int.rs:498, 505. *)
Definition p_shift_amount (dbg : bool) (b : Z) : prog nat :=
  let% r := p_try_from dbg t_usize b in
  match r with
  | inl n => pret (Z.to_nat n)
  | inr _ => PStop Panic
  end.

(** big_int.rs:433-529, the operators on references. *)
Definition p_operate (dbg : bool) (o : operator) (a b : Z) : prog Z :=
  let% la := p_slice a in
  let% lb := p_slice b in
  match o with
  | OShl => let% n := p_shift_amount dbg b in let% out := PStop (elem_shl 64 la n) in p_new_slice out (is_negative a)
  | OShr => let% n := p_shift_amount dbg b in let% out := PStop (elem_shr dbg 64 la n) in p_new_slice out (is_negative a)
  | _ => let% (out, neg) := PStop (limbs dbg o a b la lb) in p_new_slice out neg
  end.

(** big_int/macros.rs:238-260, operands by value. *)
Definition p_by_val (op : Z -> Z -> prog Z) (a b : Z) : prog Z :=
  let% c := op a b in let% _ := p_drop b in let% _ := p_drop a in pret c.
Definition p_by_val_ref (op : Z -> Z -> prog Z) (a b : Z) : prog Z :=
  let% c := op a b in let% _ := p_drop a in pret c.
Definition p_by_ref_val (op : Z -> Z -> prog Z) (a b : Z) : prog Z :=
  let% c := op a b in let% _ := p_drop b in pret c.

(** big_int/macros.rs:31-37, with a primitive on the right. *)
Definition p_op_int (dbg : bool) (op : Z -> Z -> prog Z) (t : ity) (a v : Z) : prog Z :=
  let% b := p_from dbg t v in p_by_val op a b.

(** big_int.rs:710-722 [Pow<BigInt>]; the order of two drops as in BigIntModel.v. *)
Fixpoint p_pow_loop (dbg : bool) (fuel : nat) (self rhs out : Z) : prog (Z * Z) :=
  match fuel with
  | O => PStop Timeout
  | S fuel' =>
    let% c := p_cmp_int dbg t_i32 rhs 1 in
    match c with
    | Gt =>
      let% s := p_clone self in
      let% out' := p_by_val (p_operate dbg OMul) out s in
      let% rhs' := p_op_int dbg (p_operate dbg OSub) t_i32 rhs 1 in
      p_pow_loop dbg fuel' self rhs' out'
    | _ => pret (rhs, out)
    end
  end.
Definition p_pow (dbg : bool) (fuel : nat) (self rhs : Z) : prog Z :=
  let% z := p_eq_i32 dbg rhs 0 in
  if z then
    let% one := p_from dbg t_i32 1 in
    let% _ := p_drop rhs in
    let% _ := p_drop self in
    pret one
  else
    let% out := p_clone self in
    let% (rhs, out) := p_pow_loop dbg fuel self rhs out in
    let% _ := p_drop rhs in
    let% _ := p_drop self in
    pret out.

(** Expressions, as in BigIntExprModel.v.  No code of its own: what a caller writes. *)
Fixpoint p_eval (dbg : bool) (fuel : nat) (vars : list Z) (e : expr) : prog Z :=
  let var i := nth i vars 0 in
  match e with
  | Lit t v => p_from dbg t v
  | Cloned i => p_clone (var i)
  | VarVar o i j => p_operate dbg o (var i) (var j)
  | ExpVar o e j => let% a := p_eval dbg fuel vars e in p_by_val_ref (p_operate dbg o) a (var j)
  | VarExp o i e => let% b := p_eval dbg fuel vars e in p_by_ref_val (p_operate dbg o) (var i) b
  | ExpExp o e f => let% a := p_eval dbg fuel vars e in let% b := p_eval dbg fuel vars f in p_by_val (p_operate dbg o) a b
  | ExpInt o e t v => let% a := p_eval dbg fuel vars e in p_op_int dbg (p_operate dbg o) t a v
  | Power e f => let% a := p_eval dbg fuel vars e in let% b := p_eval dbg fuel vars f in p_pow dbg fuel a b
  | Minus e => let% a := p_eval dbg fuel vars e in pret (bi_neg a)
  end.

(** ** Several threads *)

(** Every thread runs a program; [bdone] is what has happened in the interner so far; [bowned] are, per thread, the handles (numbered
    as in ConcInternModel.v) of the BigInts that the thread itself has made and not dropped.  Handles only serve to say
    whose references to an id are whose: the interner is given the id alone.  No code of its own: the machine. *)
Record bconf := BConf {
  bdone : list (action (list Z));
  bprogs : list (prog Z);
  bowned : list (list nat) }.

(** Handle [m] is one of [ms] and has the id [k].  No code. *)
Definition usable (cf : iconf (list Z)) (ms : list nat) (m : nat) (k : Z) : bool :=
  existsb (Nat.eqb m) ms && match nth_error (handles cf) m with Some h => hid h =? k | None => false end.

(** The next call of the program of a thread that owns [ms], besides the variables [vs], which all threads may read; made through
    handle [m] if it is a call that takes an id.  No code of its own: the machine. *)
Definition next_call {A} (cf : iconf (list Z)) (vs ms : list nat) (p : prog A) (m : nat) : option (icall (list Z)) :=
  match p with
  | PStop _ => None
  | PAdd l _ => Some (CAdd l)
  | PGet k _ => if usable cf (vs ++ ms) m k then Some (CGet m) else None
  | PIncr k _ => if usable cf (vs ++ ms) m k then Some (CIncr m) else None
  | PDecr k _ => if usable cf ms m k then Some (CDecr m) else None
  end.

(** The call has returned: how the program goes on, and what the thread owns then.  No code of its own: the machine. *)
Definition resume {A} (cf cf' : iconf (list Z)) (q : ipc (list Z)) (ms : list nat) (p : prog A) : prog A * list nat :=
  let new := length (handles cf) in
  match p with
  | PStop _ => (p, ms)
  | PAdd _ f => (match nth_error (handles cf') new with Some h => f (hid h) | None => PStop Panic end, new :: ms)
  | PGet _ f => (match last (ConcInternModel.reads cf') (O, None) with (_, Some l) => f l | _ => PStop Panic end, ms)
  | PIncr _ p => (p, new :: ms)
  | PDecr _ p => (p, match q with Decr m _ => remove Nat.eq_dec m ms | _ => ms end)
  end.

(** Thread [t] takes a step: it begins the next call, or takes the next step of the call it is inside.  No code of its own: the machine. *)
Definition bstep (dbg : bool) (n : nat) (vs : list nat) (bc : bconf) (a : nat * nat) : bconf :=
  let '(t, m) := a in
  let cf := run dbg n (bdone bc) in
  match nth_error (ithreads cf) t, nth_error (bprogs bc) t, nth_error (bowned bc) t with
  | Some None, Some p, Some ms =>
    match next_call cf vs ms p m with
    | Some c => BConf (bdone bc ++ [Begin t c]) (bprogs bc) (bowned bc)
    | None => bc
    end
  | Some (Some q), Some p, Some ms =>
    let cf' := run dbg n (bdone bc ++ [Go t]) in
    match nth_error (ithreads cf') t with
    | Some None =>
      let '(p', ms') := resume cf cf' q ms p in
      BConf (bdone bc ++ [Go t]) (upd (bprogs bc) t p') (upd (bowned bc) t ms')
    | _ => BConf (bdone bc ++ [Go t]) (bprogs bc) (bowned bc)
    end
  | _, _, _ => bc
  end.

Definition bexec (dbg : bool) (n : nat) (vs : list nat) (sched : list (nat * nat)) (bc : bconf) : bconf :=
  fold_left (bstep dbg n vs) sched bc.

(** After [acts], which left the BigInts [vars], whose handles are [vs], thread number [t] begins to evaluate the [t]-th of [es].
    No code of its own: the machine. *)
Definition bstart (dbg : bool) (fuel : nat) (acts : list (action (list Z))) (vars : list Z) (es : list expr) : bconf :=
  BConf acts (map (p_eval dbg fuel vars) es) (repeat [] (length es)).
