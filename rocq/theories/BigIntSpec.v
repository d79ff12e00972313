(** Specification vocabulary for BigInts: which integer a handle denotes, and what it means
    for the store to agree with the handles in circulation.  A handle is one machine word:
    bit 0 is the sign, bit 1 says "inline", the remaining bits are the magnitude (inline) or
    the interner id.  The store is only looked at through [try_get] and [refcount]. *)
From Coq Require Import ZArith List Bool.
From Verif Require Import Base Spec BitSliceModel InternModel.
Import ListNotations.
Local Open Scope Z_scope.

(** The integer denoted by handle [h] in store [st]. *)
Definition denotes (st : store (list Z)) (h v : Z) : Prop :=
  let sgn := if Z.odd h then -1 else 1 in
  if Z.testbit h 1 then v = sgn * (h / 4)
  else exists l, try_get st (h / 4) = Ok (Some l) /\ v = sgn * val 64 l.

(** The handle of "minus zero", which only negating a zero produces. *)
Definition neg_zero : Z := 3.

(** Number of handles of the list that refer to the store, and to id [k] of it. *)
Definition refers (k h : Z) : bool := negb (Z.testbit h 1) && (h / 4 =? k).
Definition live (hs : list Z) : nat := length (filter (fun h => negb (Z.testbit h 1)) hs).
Definition uses (k : Z) (hs : list Z) : nat := length (filter (refers k) hs).

(** An interned handle names a referenced slot with the limbs of a number that needs more
    than 62 bits. *)
Definition valid (st : store (list Z)) (h : Z) : Prop :=
  0 <= h < 2 ^ 64 /\
  (Z.testbit h 1 = true \/
   exists l, h / 4 < 32 * Z.of_nat (length st) /\ try_get st (h / 4) = Ok (Some l) /\
     wf 64 l /\ canonical l /\ 2 ^ 62 <= val 64 l).

(** [st] agrees with the handles [hs] in circulation: every reference count is the number of
    handles that refer to the slot.  [P] bounds the peak number of interned handles: at most
    [P / 32 + 1] chunks have been allocated. *)
Record consistent (P : Z) (st : store (list Z)) (hs : list Z) : Prop := {
  con_shape : Forall (fun c => length c = 32%nat) st;
  con_refs : forall k, 0 <= k < 32 * Z.of_nat (length st) ->
    refcount st k = Ok (Z.of_nat (uses k hs));
  con_valid : Forall (valid st) hs;
  con_size : 32 * Z.of_nat (length st) <= P + 32;
  con_small : P < 2 ^ 61;
}.

(** There is room for [n] more interned handles below the peak. *)
Definition room (P : Z) (hs : list Z) (n : Z) : Prop := Z.of_nat (live hs) + n <= P.

(** Nothing happened to the handles [hs]. *)
Definition keeps (st st' : store (list Z)) (hs : list Z) : Prop :=
  forall h v, In h hs -> denotes st h v -> denotes st' h v.

(** [m] run in store [st] returns a new handle that denotes [v], while the handles [hs] stay
    in circulation and keep their values. *)
Definition yields (P : Z) (hs : list Z) (m : store (list Z) -> res (Z * store (list Z)))
  (st : store (list Z)) (v : Z) : Prop :=
  exists c st', m st = Ok (c, st') /\ consistent P st' (c :: hs) /\ keeps st st' hs /\
    denotes st' c v /\ c <> neg_zero.

(** [m] returns [r] and leaves everything else as it was. *)
Definition returns {A} (P : Z) (hs : list Z) (m : store (list Z) -> res (A * store (list Z)))
  (st : store (list Z)) (r : A) : Prop :=
  exists st', m st = Ok (r, st') /\ consistent P st' hs /\ keeps st st' hs.

(** The primitive integer types of Rust: 8 to 128 bits, either signedness. *)
Definition std_ty (t : ity) : Prop := In (ibits t) [8; 16; 32; 64; 128]%nat.

(** The number of bits of a magnitude, counted in whole limbs, fits a [usize]. *)
Definition addressable (x : Z) : Prop := Z.log2 (Z.abs x) < 2 ^ 64 - 64.
