(** Model of crates/utils/src/intern.rs used by one thread at a time (the concurrent
    behaviour is in ConcInternModel.v).  The linked list of chunks (crates/utils/src/linked.rs) is
    a list of chunks here: with one thread, [push] appends and returns the new length, [iter]
    visits the chunks in order and [get] reads by position. *)
From Coq Require Import ZArith List Bool.
From Verif Require Import Base.
Import ListNotations.
Local Open Scope Z_scope.

(** crates/utils/src/intern.rs:9 [CHUNK_SIZE]. *)
Definition chunk_size : nat := 32.

(** crates/utils/src/intern.rs:17-20 [Interned]; [refs] is a 64-bit [usize]. *)
Record slot (T : Type) := Slot { refs : Z; cont : option T }.
Arguments Slot {T} refs cont.
Arguments refs {T} s.
Arguments cont {T} s.

(** crates/utils/src/intern.rs:69-71 [Interner], chunk after chunk. *)
Definition store (T : Type) := list (list (slot T)).

(** crates/utils/src/intern.rs:24-29 [Interned::new_uninit]. *)
Definition new_uninit {T} : slot T := Slot 0 None.

(** crates/utils/src/intern.rs:87,162, the array given to [push]. *)
Definition new_chunk {T} : list (slot T) := repeat new_uninit chunk_size.

(** crates/utils/src/intern.rs:78-82 [Interner::new]. *)
Definition interner_new {T} : store T := [].

(** crates/utils/src/intern.rs:84-90 [Interner::with_capacity]; [capacity + 31] does not overflow (no list of 2^59 chunks fits in memory). *)
Definition with_capacity {T} (capacity : nat) : store T :=
  repeat new_chunk (Nat.div (capacity + chunk_size - 1) 32).

(** crates/utils/src/intern.rs:11-15 [Find]. *)
Inductive found := Exists (i j : nat) | Dead (i j : nat) | Nothing.

(** crates/utils/src/intern.rs:98-107, the inner loop of [find] from slot [j] of chunk [i]
    on; [None] when the loop ends without returning. *)
Fixpoint find_slot {T} (eqb : T -> T -> bool) (v : T) (i j : nat) (l : list (slot T))
  : option found :=
  match l with
  | [] => None
  | s :: l' =>
    if match cont s with Some cur => eqb v cur | None => false end then Some (Exists i j)
    else if refs s =? 0 then Some (Dead i j)
    else find_slot eqb v i (S j) l'
  end.

(** crates/utils/src/intern.rs:97-109, the outer loop of [find] from chunk [i] on. *)
Fixpoint find_chunk {T} (eqb : T -> T -> bool) (v : T) (i : nat) (st : store T) : found :=
  match st with
  | [] => Nothing
  | c :: st' =>
    match find_slot eqb v i 0 c with
    | Some f => f
    | None => find_chunk eqb v (S i) st'
    end
  end.

(** crates/utils/src/intern.rs:92-110 [Interner::find]. *)
Definition find {T} (eqb : T -> T -> bool) (st : store T) (v : T) : found :=
  find_chunk eqb v 0 st.

(** [&self.inner[i][j]]: crates/utils/src/linked.rs:130-137 panics on a chunk index out of
    range, array indexing on a slot index out of range. *)
Definition slot_at {T} (st : store T) (i j : nat) : res (slot T) :=
  do c <- unwrap (nth_error st i) ;; unwrap (nth_error c j).

(** Store with slot [j] of chunk [i] replaced.  No code of its own: writes of crates/utils/src/intern.rs:113-169. *)
Definition slot_put {T} (st : store T) (i j : nat) (s : slot T) : store T :=
  match nth_error st i with
  | Some c => upd st i (upd c j s)
  | None => st
  end.

(** crates/utils/src/intern.rs:112-116 [incr_inner]: the atomic add wraps; with debug
    assertions a previous count of [usize::MAX] panics. *)
Definition incr_inner {T} (dbg : bool) (st : store T) (i j : nat) : res (store T) :=
  do s <- slot_at st i j ;;
  if dbg && (refs s =? 2 ^ 64 - 1) then Panic
  else Ok (slot_put st i j (Slot ((refs s + 1) mod 2 ^ 64) (cont s))).

(** crates/utils/src/intern.rs:118-125 [decr_inner]: stays at zero. *)
Definition decr_inner {T} (st : store T) (i j : nat) : res (store T) :=
  do s <- slot_at st i j ;;
  Ok (slot_put st i j (Slot (if refs s =? 0 then 0 else refs s - 1) (cont s))).

(** crates/utils/src/intern.rs:47-49 [Interned::set_val]. *)
Definition set_val {T} (st : store T) (i j : nat) (v : T) : res (store T) :=
  do s <- slot_at st i j ;;
  Ok (slot_put st i j (Slot (refs s) (Some v))).

(** crates/utils/src/intern.rs:127-130 [offset_to_idx]. *)
Definition offset_to_idx (offset : Z) : nat * nat :=
  (Z.to_nat (offset / 32), Z.to_nat (offset mod 32)).

(** crates/utils/src/intern.rs:144,157,166, the id of a slot. *)
Definition idx_to_offset (i j : nat) : Z := Z.of_nat i * 32 + Z.of_nat j.

(** crates/utils/src/intern.rs:134-169 [Interner::add]; the id and the new store. *)
Definition intern_add {T} (eqb : T -> T -> bool) (dbg : bool) (v : T) (st : store T)
  : res (Z * store T) :=
  match find eqb st v with
  | Exists i j =>
    do st <- incr_inner dbg st i j ;;
    Ok (idx_to_offset i j, st)
  | Dead i j =>
    do st <- incr_inner dbg st i j ;;
    do st <- set_val st i j v ;;
    Ok (idx_to_offset i j, st)
  | Nothing =>
    let st := st ++ [new_chunk] in
    let len := length st in
    do st <- incr_inner dbg st (len - 1) 0 ;;
    do st <- set_val st (len - 1) 0 v ;;
    Ok (Z.of_nat (len - 1) * 32, st)
  end.

(** crates/utils/src/intern.rs:171-179 [try_get].  A positive count on a slot without a value
    makes [val] (lines 38-41) undefined behaviour; that case is [Panic] here, and no theorem
    concludes anything from it. *)
Definition try_get {T} (st : store T) (offset : Z) : res (option T) :=
  let '(i, j) := offset_to_idx offset in
  do s <- slot_at st i j ;;
  if refs s =? 0 then Ok None
  else match cont s with Some v => Ok (Some v) | None => Panic end.

(** crates/utils/src/intern.rs:181-183 [get]. *)
Definition intern_get {T} (st : store T) (offset : Z) : res T :=
  do o <- try_get st offset ;; unwrap o.

(** crates/utils/src/intern.rs:185-188 [incr]. *)
Definition intern_incr {T} (dbg : bool) (offset : Z) (st : store T) : res (store T) :=
  let '(i, j) := offset_to_idx offset in incr_inner dbg st i j.

(** crates/utils/src/intern.rs:190-193 [decr]. *)
Definition intern_decr {T} (offset : Z) (st : store T) : res (store T) :=
  let '(i, j) := offset_to_idx offset in decr_inner st i j.

(** crates/utils/src/intern.rs:196-199 [refcount]. *)
Definition refcount {T} (st : store T) (offset : Z) : res Z :=
  let '(i, j) := offset_to_idx offset in
  do s <- slot_at st i j ;; Ok (refs s).

(** What is read through the reference that [try_get] or [get] (crates/utils/src/intern.rs:171-183)
    returned for id [offset], when it is read while the interner is [st]: the reference points into
    the slot, and slots do not move. *)
Definition behind {T} (st : store T) (offset : Z) : res T :=
  let '(i, j) := offset_to_idx offset in
  do s <- slot_at st i j ;; unwrap (cont s).
