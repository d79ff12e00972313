(** The interner of WeakInternModel.v with its list of chunks under the same weak memory.

    The list is that of linked.rs.  By C120 a walk along it answers as if it saw some first part of
    the list that has at least the chunks that the thread knows of; a thread that has found a chunk
    has found the links up to it with acquiring loads, so it has seen what the pushing threads had
    seen.  Here a walk is one step whose answer is any of these; [push] is one step too, and the
    length it returns is any that C64 and C120 allow: at least one more than the chunks the thread
    knows of, at most the length of the list after the push. *)
From Coq Require Import ZArith List Bool PeanoNat.
From Verif Require Import Base ConcInternModel WeakInternModel.
Import ListNotations.
Local Open Scope Z_scope.

Section Model.
Context {T : Type} (eqb : T -> T -> bool) (locked : bool).

(** The interner, and for each chunk the view released with the link to it (linked.rs:21-25, 92-97). *)
Record cconf := CConf { cbase : wconf T; clinks : list view }.

(** crates/utils/src/intern.rs:77-90 [new] and [with_capacity], with [n] threads. *)
Definition cinitial (n capacity : nat) : cconf := CConf (winitial n capacity) (repeat [] ((capacity + 32 - 1) / 32)).

Definition knows_chunk (V : view) (i : nat) : bool :=
  existsb (fun x => match x with Chunk j => Nat.eqb j i | _ => false end) V.

(** How many chunks, from the first on and of the first [n], a thread knows of.  What crates/utils/src/linked.rs:64-130 can reach. *)
Fixpoint known_from (V : view) (i n : nat) : nat :=
  match n with O => O | S n' => if knows_chunk V i then S (known_from V (S i) n') else O end.
Definition known_chunks (V : view) (n : nat) : nat := known_from V 0 n.

(** The walk to chunk [i] (linked.rs:111-120 [get], 166-175 [Iter::next]): it may not be found
    ([stale]) if the thread does not know of it. *)
Definition reach (links : list view) (stale : bool) (V : view) (i : nat) : option view :=
  if Nat.ltb i (length links) && negb (stale && Nat.leb (known_chunks V (S i)) i)
  then Some (map Chunk (seq 0 (S i)) ++ concat (firstn (S i) links) ++ V) else None.

(** The chunk that a step looks up: [self.inner[..]], intern.rs:143, 149, 156, 163, 165, 173 and
    187-192, or the iteration of intern.rs:97 when it comes to a new chunk. *)
Definition looks_up (p : wpc T) : option nat :=
  match p with
  | WFindRefs _ k => if Nat.eqb (k mod 32) 0 then Some (k / 32)%nat else None
  | WIncrLive _ k | WIncrDead _ k | WSetVal _ k | WIncr _ k | WDecr _ k | WGetRefs _ k => Some (k / 32)%nat
  | WFindVal _ _ _ | WPush _ | WGetVal _ _ | WBroken => None
  end.

(** Thread [t], at [p] with view [V], takes a step: crates/utils/src/intern.rs:92-193.  A chunk that is
    not found ends the search of [add], and makes [Index] panic (linked.rs:133-136). *)
Definition cstep (cs : cconf) (t pick : nat) (stale : bool) (p : wpc T) (V : view) : cconf :=
  let b := cbase cs in
  let links := clinks cs in
  match p with
  | WPush v =>                                                   (* linked.rs:92-109 *)
    let n := length links in
    let len := Nat.max (known_chunks V n) (Nat.min pick n) in    (* the answer is [len + 1] *)
    let V' := Chunk n :: map Chunk (seq 0 n) ++ concat links ++ V in
    let b' := wstep eqb locked (put b t (Some p) V') t pick p V' in
    CConf (put b' t (Some (WIncrDead v (32 * len)%nat)) V') (links ++ [V'])
  | _ =>
    match looks_up p with
    | None => CConf (wstep eqb locked b t pick p V) links
    | Some i =>
      match reach links stale V i with
      | Some V' => CConf (wstep eqb locked (put b t (Some p) V') t pick p V') links
      | None => CConf (put b t (Some (match p with WFindRefs v _ => WPush v | _ => WBroken end)) V) links
      end
    end
  end.

(** [WGo t pick] with [stale]: the step of thread [t], the walk to a chunk missing what it may.  No code of its own: the machine. *)
Definition cconf_step (cs : cconf) (a : waction T * bool) : cconf :=
  match a with
  | (WGo t pick, stale) =>
    match nth_error (wthreads (cbase cs)) t with
    | Some (WThread (Some p) V) => cstep cs t pick stale p V
    | _ => cs
    end
  | (a', _) => CConf (wconf_step eqb locked (cbase cs) a') (clinks cs)
  end.

Definition cexec (acts : list (waction T * bool)) (cs : cconf) : cconf := fold_left cconf_step acts cs.

End Model.
Arguments cconf T : clear implicits.
