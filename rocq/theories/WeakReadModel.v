(** Threads that only ask about shared BigInts: comparisons, equality, conversions to primitive integers and binary text, of shared variables
    and of expressions.  The code of BigIntModel.v written as programs that stop at every call of the interner, as in ConcArithModel.v, whose
    simplifications apply. *)
From Coq Require Import ZArith List Bool.
From Verif Require Import Base BitSliceModel ElementModel BitwiseModel InternModel BigIntModel BigIntRun BigIntExprModel ConcInternModel ConcArithModel WeakInternModel WeakArithModel.
Import ListNotations.
Local Open Scope Z_scope.

(** crates/ints/src/big_int.rs:349-359 [PartialEq]. *)
Definition p_eq (a b : Z) : prog bool :=
  if a =? b then pret true
  else if tag_eqb (tag_of a) (tag_of b) && negb (tag_inline (tag_of a)) then
    let% la := p_slice a in
    let% lb := p_slice b in
    pret (list_eqb la lb)
  else pret false.

(** crates/ints/src/big_int/macros.rs:162-183 [PartialEq] with primitives. *)
Definition p_eq_int (dbg : bool) (t : ity) (a v : Z) : prog bool :=
  if isigned t then
    if negb (Bool.eqb (is_negative a) (v <? 0)) then pret false
    else
      let% m := PStop (if v =? imin t then (if dbg then Panic else Ok v) else Ok (Z.abs v)) in
      let% l := p_slice a in
      let% arr := PStop (int_to_arr dbg 64 (arr_size t) (m mod 2 ^ Z.of_nat (ibits t))) in
      let% arr := PStop (shrink arr) in
      pret (list_eqb l arr)
  else
    let% l := p_slice a in
    let% arr := PStop (int_to_arr dbg 64 (arr_size t) v) in
    let% arr := PStop (shrink arr) in
    pret (list_eqb l arr).

(** crates/ints/src/big_int/macros.rs:114-126 [FromTruncating<BigInt>]: by value. *)
Definition p_truncate (dbg : bool) (t : ity) (a : Z) : prog Z :=
  let% l := p_slice a in
  let% o := PStop (arr_to_int dbg 64 t l) in
  let v := unwrap_or o (imax t) in
  let% r := PStop (if isigned t then
      let p := v * (if is_negative a then -1 else 1) in
      if in_range t p then Ok p else if dbg then Panic else Ok (wrap t p)
    else Ok v) in
  let% _ := p_drop a in
  pret r.

(** crates/ints/src/big_int.rs:281-294 [Binary]. *)
Definition p_binary (a : Z) : prog (list Z) :=
  let% l := p_slice a in
  let% s := PStop (foldR (fun out idx =>
      do b <- get_bit 64 l idx ;; Ok (out ++ [if b : bool then 49 else 48]))
    (rev (seq 0 (bit_len 64 l))) []) in
  pret (minus a ++ [48; 98] ++ s).

(** What a question is about: the shared variable number [i], through a reference, or the value of an expression, which is dropped
    afterwards.  No code of its own: what a caller writes. *)
Inductive operand := Shared (i : nat) | Made (e : expr).
Definition p_operand (dbg : bool) (fuel : nat) (vars : list Z) (p : operand) : prog Z :=
  match p with Shared i => pret (nth i vars 0) | Made e => p_eval dbg fuel vars e end.
Definition p_release (p : operand) (a : Z) : prog unit :=
  match p with Shared _ => pret tt | Made _ => p_drop a end.

(** [p.cmp(&r)], [p == r], [p == v], [T::truncate_from(e)], [T::try_from(&p)], [format!("{:b}", p)].  No code of their own: what a caller writes. *)
Inductive question :=
| AskCmp (p r : operand) | AskEq (p r : operand) | AskEqInt (t : ity) (p : operand) (v : Z)
| AskTruncate (t : ity) (e : expr) | AskTry (t : ity) (p : operand) | AskBinary (p : operand).
Inductive answer := AnsCmp (c : comparison) | AnsBool (b : bool) | AnsInt (z : Z) | AnsTry (r : Z + side) | AnsText (s : list Z).

Definition p_ask (dbg : bool) (fuel : nat) (vars : list Z) (q : question) : prog answer :=
  let with1 (p : operand) (g : Z -> prog answer) : prog answer :=
    let% a := p_operand dbg fuel vars p in
    let% x := g a in
    let% _ := p_release p a in
    pret x in
  match q with
  | AskCmp p r => with1 p (fun a => with1 r (fun b => let% c := p_cmp a b in pret (AnsCmp c)))
  | AskEq p r => with1 p (fun a => with1 r (fun b => let% c := p_eq a b in pret (AnsBool c)))
  | AskEqInt t p v => with1 p (fun a => let% c := p_eq_int dbg t a v in pret (AnsBool c))
  | AskTruncate t e => let% a := p_eval dbg fuel vars e in let% z := p_truncate dbg t a in pret (AnsInt z)
  | AskTry t p => with1 p (fun a => let% r := p_try_from dbg t a in pret (AnsTry r))
  | AskBinary p => with1 p (fun a => let% s := p_binary a in pret (AnsText s))
  end.

(** One question after the other.  No code of its own: what a caller writes. *)
Fixpoint p_asks (dbg : bool) (fuel : nat) (vars : list Z) (qs : list question) : prog (list answer) :=
  match qs with
  | [] => pret []
  | q :: qs => let% x := p_ask dbg fuel vars q in let% xs := p_asks dbg fuel vars qs in pret (x :: xs)
  end.

(** After [acts], which left the BigInts [vars], thread number [t] begins to ask the [t]-th of [qss].  No code of its own: the machine. *)
Definition wrstart (dbg : bool) (fuel : nat) (acts : list (waction (list Z) * bool)) (vars : list Z) (qss : list (list question)) : wbconf (list answer) :=
  WBConf acts (map (p_asks dbg fuel vars) qss) (repeat [] (length qss)).
