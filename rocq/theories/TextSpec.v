(** Specification vocabulary for printed numbers.  Text is a list of character codes. *)
From Coq Require Import ZArith List Bool.
Import ListNotations.
Local Open Scope Z_scope.

(** The character of digit [d]: '0'-'9', then 'a'-'z'. *)
Definition digit_char (d : Z) : Z := if d <? 10 then 48 + d else 87 + d.

(** Value of a digit list, most significant digit first. *)
Definition digits_val (radix : Z) (ds : list Z) : Z := fold_left (fun acc d => acc * radix + d) ds 0.

(** [s] is the numeral of [v]: digits in range, right value, no superfluous leading zero. *)
Definition is_numeral (radix v : Z) (s : list Z) : Prop :=
  exists ds, s = map digit_char ds /\ Forall (fun d => 0 <= d < radix) ds /\
    digits_val radix ds = v /\ (ds = [0] \/ (ds <> [] /\ hd 0 ds <> 0)).

(** The digit spelled by a character, in either case. *)
Definition char_digit (c : Z) : option Z :=
  if (48 <=? c) && (c <=? 57) then Some (c - 48)
  else if (97 <=? c) && (c <=? 122) then Some (c - 87)
  else if (65 <=? c) && (c <=? 90) then Some (c - 55)
  else None.

(** [s] spells the digits [ds] of the radix. *)
Definition spells (radix : Z) (s ds : list Z) : Prop :=
  Forall2 (fun c d => char_digit c = Some d /\ d < radix) s ds.
