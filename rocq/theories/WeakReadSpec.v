(** What the answers to the questions of WeakReadModel.v should be: from the integers alone. *)
From Coq Require Import ZArith List Bool.
From Verif Require Import Base Spec TextSpec BitSliceModel BigIntModel BigIntSpec BigIntText BigIntRun BigIntExprModel PropBigIntExpr ConcArithModel ConcArithWp PropConcArith WeakReadModel.
Import ListNotations.
Local Open Scope Z_scope.

(** The integer that a question is about, and when it may be asked without making a number of 2^62 or more in magnitude ([modest] of ConcArithWp.v;
    [sound] and [value_with outcome] as for C168). *)
Definition about (xs : list Z) (p : operand) : Z := match p with Shared i => nth i xs 0 | Made e => value_with outcome xs e end.
Definition operand_ok (dbg : bool) (fuel : nat) (xs : list Z) (p : operand) : Prop :=
  match p with Shared i => (i < length xs)%nat | Made e => sound dbg fuel xs e /\ modest xs e end.

(** What [cmp] says of [x] and [y] (C47): the order of the integers, except that two numbers of equal sign and equally many 64-bit limbs are ordered
    by their lowest differing limb. *)
Definition compares (x y : Z) (c : comparison) : Prop :=
  (c = Datatypes.Eq <-> x = y) /\
  (Z.abs x < 2 ^ 64 \/ Z.abs y < 2 ^ 64 \/ Z.log2 (Z.abs x) / 64 <> Z.log2 (Z.abs y) / 64 \/ x < 0 <= y \/ y < 0 <= x -> c = (x ?= y)) /\
  ((x < 0 <-> y < 0) -> Z.log2 (Z.abs x) / 64 = Z.log2 (Z.abs y) / 64 ->
    c = (if x <? 0 then Gt else Lt) <->
    exists k, 0 <= k /\ Z.abs x mod 2 ^ (64 * k) = Z.abs y mod 2 ^ (64 * k) /\
      (Z.abs x / 2 ^ (64 * k)) mod 2 ^ 64 < (Z.abs y / 2 ^ (64 * k)) mod 2 ^ 64).

(** Binary text (C107). *)
Definition binary_text (x : Z) (s : list Z) : Prop :=
  exists ds, s = (if x <? 0 then [45] else []) ++ [48; 98] ++ map digit_char ds /\
    Forall (fun d => 0 <= d < 2) ds /\ digits_val 2 ds = Z.abs x /\ Z.of_nat (length ds) = 64 * (Z.log2 (Z.abs x) / 64 + 1).

(** Questions that one thread gets an answer to: types of up to 32 bits for [try_from], so that their bounds are small; no comparison in a debug build with the
    least value of a signed type, which panics (C56); and no conversion to [i128] from 2^127 on (C100). *)
Definition question_ok (dbg : bool) (fuel : nat) (xs : list Z) (q : question) : Prop :=
  match q with
  | AskCmp p r | AskEq p r => operand_ok dbg fuel xs p /\ operand_ok dbg fuel xs r
  | AskEqInt t p v => operand_ok dbg fuel xs p /\ std_ty t /\ in_range t v = true /\ (isigned t = true -> dbg = true -> v <> imin t)
  | AskTruncate t e => operand_ok dbg fuel xs (Made e) /\ std_ty t /\ (isigned t = true -> ibits t = 128%nat -> Z.abs (about xs (Made e)) < 2 ^ 127)
  | AskTry t p => operand_ok dbg fuel xs p /\ std_ty t /\ (ibits t <= 32)%nat
  | AskBinary p => operand_ok dbg fuel xs p
  end.

(** The answers; wrong ones where the code's are wrong for one thread, too (C56: unsigned types; C49, C100: the sign is lost or the value saturates). *)
Definition right_answer (xs : list Z) (q : question) (a : answer) : Prop :=
  match q with
  | AskCmp p r => exists c, a = AnsCmp c /\ compares (about xs p) (about xs r) c
  | AskEq p r => a = AnsBool (about xs p =? about xs r)
  | AskEqInt t p v => a = AnsBool ((if isigned t then about xs p else Z.abs (about xs p)) =? v)
  | AskTruncate t e =>
    let x := about xs (Made e) in a = AnsInt ((if isigned t then Z.sgn x else 1) * Z.min (Z.abs x) (imax t))
  | AskTry t p =>
    let x := about xs p in
    a = AnsTry (if imax t <? x then inr Above else if x <? imin t then inr Below else if Z.abs x <=? imax t then inl (Z.abs x) else inr Above)
  | AskBinary p => exists s, a = AnsText s /\ binary_text (about xs p) s
  end.
