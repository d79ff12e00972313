(** Specification vocabulary.  Nothing in this file refers to the model of the code. *)
From Coq Require Import ZArith List Bool.
Import ListNotations.
Local Open Scope Z_scope.

(** Value of a little-endian list of [w]-bit limbs. *)
Fixpoint val (w : nat) (l : list Z) : Z :=
  match l with
  | [] => 0
  | x :: l' => x + 2 ^ Z.of_nat w * val w l'
  end.

(** Every limb is a [w]-bit word. *)
Definition wf (w : nat) (l : list Z) : Prop :=
  Forall (fun x => 0 <= x < 2 ^ Z.of_nat w) l.

(** Number of distinct values of a slice of [n] limbs. *)
Definition cap (w n : nat) : Z := 2 ^ (Z.of_nat w * Z.of_nat n).

(** No leading zero limb, except for the one-limb representation of zero. *)
Definition canonical (l : list Z) : Prop :=
  l <> [] /\ (last l 0 <> 0 \/ length l = 1%nat).

(** Value of a list of bits, least significant first. *)
Fixpoint bits_val (l : list bool) : Z :=
  match l with
  | [] => 0
  | b :: l' => Z.b2z b + 2 * bits_val l'
  end.

(** The signed value of a two's-complement byte list. *)
Definition sval (a : list Z) : Z :=
  if 2 * val 8 a <? cap 8 (length a) then val 8 a else val 8 a - cap 8 (length a).

(** [x] reduced modulo [2^(8n)] into [[-2^(8n-1), 2^(8n-1))]. *)
Definition swrap (n : nat) (x : Z) : Z :=
  let r := x mod cap 8 n in if 2 * r <? cap 8 n then r else r - cap 8 n.
