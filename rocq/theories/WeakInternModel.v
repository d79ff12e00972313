(** Model of crates/utils/src/intern.rs used by several threads under a weak memory model: the
    reference counts are atomics with the orderings written in the source, the values are plain
    memory ([UnsafeCell]) whose accesses are recorded so that one can ask whether two of them race.

    Semantics: the usual view-based one for the release/acquire/relaxed fragment of C11 (without load
    buffering).  The count of a slot is a sequence of messages; a message carries the view of the
    thread that released it; a load returns any message not older than what the thread has seen of
    that count, and an acquire load joins the message's view; a read-modify-write reads the last
    message, joins its view and appends a message.  A view also contains the accesses to values that
    happen before the present moment of the thread.

    Simplifications: slots are numbered through, [32 * i + j] for slot [j] of chunk [i]; here a chunk
    is found without delay and the answer of [push] is exact (WeakChunkModel.v adds the delays and the
    answers of the list of chunks); counts do not overflow; the reference returned by [get] is read when it is returned (it could be
    kept until the handle is given back, as long as a thread may give it back only after that). *)
From Coq Require Import ZArith List Bool PeanoNat.
From Verif Require Import Base ConcInternModel.
Import ListNotations.
Local Open Scope Z_scope.

(** What a thread can have seen: access number [n] to a value; message [p] of the count of slot [k];
    the link to chunk [i].  No code of its own: the memory model. *)
Inductive item := Acc (n : nat) | Pos (k p : nat) | Chunk (i : nat).
Definition view := list item.

(** The oldest message of the count of slot [k] that may still be read.  No code of its own: the memory model. *)
Fixpoint bound (V : view) (k : nat) : nat :=
  match V with
  | [] => O
  | Pos k' p :: V' => if Nat.eqb k' k then Nat.max p (bound V' k) else bound V' k
  | Acc _ :: V' | Chunk _ :: V' => bound V' k
  end.

Section Model.
Context {T : Type} (eqb : T -> T -> bool) (locked : bool).

(** crates/utils/src/intern.rs:17-29 [Interned]: the messages of [refs], oldest first, and [val]. *)
Record wslot := WSlot { wmsgs : list (Z * view); wcont : option T }.
Definition fresh_slot : wslot := WSlot [(0, [])] None.

(** An access to a value: of which slot, by whom, and what happened before it.  [ByFind]: intern.rs:102;
    [BySet]: intern.rs:47 (the only write); [ByGet n]: intern.rs:177 through handle [n]. *)
Inductive accessor := ByFind | BySet | ByGet (n : nat).
Record access := Access { aslot : nat; aby : accessor; aview : view }.

(** A handle, as in ConcInternModel.v, with the view in which it was created and the views in which
    it was used: a thread that uses a handle has received it from its creator, and a thread that
    gives it back knows that the other uses of it are over (Rust's ownership rules).  crates/utils/src/intern.rs:54 [InternId]. *)
Record whandle := WHandle { whid : nat; whval : T; whst : hstate; whborn : view; whused : view }.

(** Where a thread is inside a call.  Between the accesses of crates/utils/src/intern.rs:92-193. *)
Inductive wpc :=
| WFindRefs (v : T) (k : nat)            (* intern.rs:97-101 *)
| WFindVal (v : T) (k : nat) (count : Z) (* intern.rs:102-106 *)
| WIncrLive (v : T) (k : nat)            (* intern.rs:143 *)
| WIncrDead (v : T) (k : nat)            (* intern.rs:149 and 163 *)
| WSetVal (v : T) (k : nat)              (* intern.rs:156 and 165 *)
| WPush (v : T)                          (* intern.rs:160-162 *)
| WIncr (n k : nat)                      (* intern.rs:187 *)
| WDecr (n k : nat)                      (* intern.rs:192 *)
| WGetRefs (n k : nat)                   (* intern.rs:174 *)
| WGetVal (n k : nat)                    (* intern.rs:177 *)
| WBroken.                               (* a slot or a value that is not there was used *)

(** A thread: where it is, and its view.  No code of its own: the machine. *)
Record wthread := WThread { wpos : option wpc; wview : view }.

(** The slots, the accesses to values so far, the threads, the handles, what the calls of [get]
    returned ([None]: it panicked), and the view of the lock around [add] if there is one.
    crates/utils/src/intern.rs:17-71 and its callers. *)
Record wconf := WConf {
  wslots : list wslot;
  wlog : list access;
  wthreads : list wthread;
  whandles : list whandle;
  wreads : list (nat * option T);
  wlock : view }.

(** Thread [t] makes a call or takes a step; [pick]: which message a load returns, if it may;
    [WSync t u]: thread [t] learns by other means of what thread [u] has done.  No code of its own: the machine. *)
Inductive waction := WBegin (t : nat) (c : icall T) | WGo (t pick : nat) | WSync (t u : nat).

Definition new_slots : list wslot := repeat fresh_slot 32.

(** crates/utils/src/intern.rs:77-90 [new] and [with_capacity], with [n] threads, which have seen the
    making of the interner, as the lock has. *)
Definition winitial (n capacity : nat) : wconf :=
  let c := ((capacity + 32 - 1) / 32)%nat in
  WConf (concat (repeat new_slots c)) [] (repeat (WThread None (map Chunk (seq 0 c))) n) [] [] (map Chunk (seq 0 c)).

Definition put (cf : wconf) (t : nat) (p : option wpc) (V : view) : wconf :=
  WConf (wslots cf) (wlog cf) (upd (wthreads cf) t (WThread p V)) (whandles cf) (wreads cf) (wlock cf).
Definition put_slot (cf : wconf) (k : nat) (s : wslot) : wconf :=
  WConf (upd (wslots cf) k s) (wlog cf) (wthreads cf) (whandles cf) (wreads cf) (wlock cf).
Definition put_handles (cf : wconf) (hs : list whandle) : wconf :=
  WConf (wslots cf) (wlog cf) (wthreads cf) hs (wreads cf) (wlock cf).
Definition put_lock (cf : wconf) (V : view) : wconf :=
  WConf (wslots cf) (wlog cf) (wthreads cf) (whandles cf) (wreads cf) V.
Definition put_read (cf : wconf) (n : nat) (o : option T) : wconf :=
  WConf (wslots cf) (wlog cf) (wthreads cf) (whandles cf) (wreads cf ++ [(n, o)]) (wlock cf).
Definition put_log (cf : wconf) (a : access) : wconf :=
  WConf (wslots cf) (wlog cf ++ [a]) (wthreads cf) (whandles cf) (wreads cf) (wlock cf).

(** A thread inside a call of [add].  No code of its own: callers of crates/utils/src/intern.rs:134. *)
Definition in_add (p : option wpc) : bool :=
  match p with
  | Some (WFindRefs _ _) | Some (WFindVal _ _ _) | Some (WIncrLive _ _) | Some (WIncrDead _ _)
  | Some (WSetVal _ _) | Some (WPush _) => true
  | _ => false
  end.

(** Thread [t], with view [V], makes a call.  With [locked], [add] is called with a lock held, as in
    [lock.lock().unwrap().add(v)]: if another thread is inside [add] nothing happens (the thread
    waits), and what happened before the last unlocking happens before this call.  As in
    ConcInternModel.v, a handle that was or is being given back cannot be used, and one in use cannot
    be given back.  No code of its own: callers of crates/utils/src/intern.rs:134-193. *)
Definition wbegin (cf : wconf) (t : nat) (V : view) (c : icall T) : wconf :=
  let with_handle n st V' p :=
    match nth_error (whandles cf) n with
    | Some h => put (put_handles cf (upd (whandles cf) n (WHandle (whid h) (whval h) st (whborn h) (whused h)))) t (Some p) V'
    | None => cf
    end in
  match c with
  | CAdd v =>
    if locked then
      if existsb (fun th => in_add (wpos th)) (wthreads cf) then cf
      else put cf t (Some (WFindRefs v 0)) (wlock cf ++ V)
    else put cf t (Some (WFindRefs v 0)) V
  | CIncr n =>
    match nth_error (whandles cf) n with
    | Some (WHandle k _ (Held b) born _) => with_handle n (Held (b + 1)) (born ++ V) (WIncr n k)
    | _ => cf
    end
  | CDecr n =>
    match nth_error (whandles cf) n with
    | Some (WHandle k _ (Held O) born used) => with_handle n Leaving (born ++ used ++ V) (WDecr n k)
    | _ => cf
    end
  | CGet n =>
    match nth_error (whandles cf) n with
    | Some (WHandle k _ (Held b) born _) => with_handle n (Held (b + 1)) (born ++ V) (WGetRefs n k)
    | _ => cf
    end
  end.

(** Load of the count of slot [k].  crates/utils/src/intern.rs:92-111, 134-169. *)
Definition load_refs (s : wslot) (k pick : nat) (acq : bool) (V : view) : Z * view :=
  let p := if Nat.leb (bound V k) pick && Nat.ltb pick (length (wmsgs s)) then pick else (length (wmsgs s) - 1)%nat in
  let '(c, mv) := nth p (wmsgs s) (0, []) in
  (c, Pos k p :: (if acq then mv else []) ++ V).

(** Read-modify-write ([AcqRel]) of the count of slot [k].  crates/utils/src/intern.rs:113-131. *)
Definition update_refs (s : wslot) (k : nat) (d : Z) (V : view) : wslot * view :=
  let '(c, mv) := last (wmsgs s) (0, []) in
  let V' := Pos k (length (wmsgs s)) :: mv ++ V in
  (WSlot (wmsgs s ++ [(c + d, V')]) (wcont s), V').

(** The call through handle [n] is over; [V] is the view at its end.  No code of its own: ownership of ids in callers. *)
Definition unuse (hs : list whandle) (n : nat) (V : view) : list whandle :=
  match nth_error hs n with
  | Some (WHandle k v (Held b) born used) => upd hs n (WHandle k v (Held (b - 1)) born (V ++ used))
  | _ => hs
  end.

(** [add] returns: the lock, if there is one, is released.  crates/utils/src/intern.rs:134-169; the lock is the caller's. *)
Definition wadded (cf : wconf) (t : nat) (v : T) (k : nat) (V : view) : wconf :=
  put (put_handles (if locked then put_lock cf V else cf) (whandles cf ++ [WHandle k v (Held 0) V []])) t None V.

(** Thread [t], at [p] with view [V], takes a step: crates/utils/src/intern.rs:92-193. *)
Definition wstep (cf : wconf) (t pick : nat) (p : wpc) (V : view) : wconf :=
  let on k f := match nth_error (wslots cf) k with Some s => f s | None => put cf t (Some WBroken) V end in
  let here := Acc (length (wlog cf)) in
  match p with
  | WFindRefs v k =>                                             (* Acquire *)
    match nth_error (wslots cf) k with
    | None => put cf t (Some (WPush v)) V
    | Some s => let '(c, V') := load_refs s k pick true V in put cf t (Some (WFindVal v k c)) V'
    end
  | WFindVal v k c =>                                            (* not atomic *)
    on k (fun s =>
      put (put_log cf (Access k ByFind V)) t
        (Some (if match wcont s with Some cur => eqb v cur | None => false end then WIncrLive v k
               else if c =? 0 then WIncrDead v k
               else WFindRefs v (S k))) (here :: V))
  | WIncrLive v k =>                                             (* AcqRel *)
    on k (fun s => let '(s', V') := update_refs s k 1 V in wadded (put_slot cf k s') t v k V')
  | WIncrDead v k =>                                             (* AcqRel *)
    on k (fun s => let '(s', V') := update_refs s k 1 V in put (put_slot cf k s') t (Some (WSetVal v k)) V')
  | WSetVal v k =>                                               (* not atomic *)
    on k (fun s => wadded (put_slot (put_log cf (Access k BySet V)) k (WSlot (wmsgs s) (Some v))) t v k (here :: V))
  | WPush v =>
    put (WConf (wslots cf ++ new_slots) (wlog cf) (wthreads cf) (whandles cf) (wreads cf) (wlock cf)) t
      (Some (WIncrDead v (length (wslots cf)))) V
  | WIncr n k =>                                                 (* AcqRel *)
    on k (fun s =>
      let '(s', V') := update_refs s k 1 V in
      match nth_error (whandles cf) n with
      | Some h => put (put_handles (put_slot cf k s') (unuse (whandles cf) n V' ++ [WHandle k (whval h) (Held 0) V' []])) t None V'
      | None => cf
      end)
  | WDecr n k =>                                                 (* AcqRel; Acquire when it is zero *)
    on k (fun s =>
      match nth_error (whandles cf) n with
      | Some h =>
        let gone := upd (whandles cf) n (WHandle (whid h) (whval h) Gone (whborn h) (whused h)) in
        if fst (last (wmsgs s) (0, [])) =? 0 then
          let '(_, V') := load_refs s k (length (wmsgs s) - 1) true V in put (put_handles cf gone) t None V'
        else let '(s', V') := update_refs s k (-1) V in put (put_handles (put_slot cf k s') gone) t None V'
      | None => cf
      end)
  | WGetRefs n k =>                                              (* Relaxed *)
    on k (fun s =>
      let '(c, V') := load_refs s k pick false V in
      if c =? 0 then put (put_handles (put_read cf n None) (unuse (whandles cf) n V')) t None V'
      else put cf t (Some (WGetVal n k)) V')
  | WGetVal n k =>                                               (* not atomic *)
    on k (fun s =>
      let cf' := put_log cf (Access k (ByGet n) V) in
      match wcont s with
      | Some v => put (put_handles (put_read cf' n (Some v)) (unuse (whandles cf) n (here :: V))) t None (here :: V)
      | None => put cf' t (Some WBroken) V
      end)
  | WBroken => cf
  end.

(** One action, and several.  No code of its own: the machine. *)
Definition wconf_step (cf : wconf) (a : waction) : wconf :=
  match a with
  | WBegin t c =>
    match nth_error (wthreads cf) t with
    | Some (WThread None V) => wbegin cf t V c
    | _ => cf
    end
  | WGo t pick =>
    match nth_error (wthreads cf) t with
    | Some (WThread (Some p) V) => wstep cf t pick p V
    | _ => cf
    end
  | WSync t u =>
    match nth_error (wthreads cf) t, nth_error (wthreads cf) u with
    | Some (WThread None V), Some (WThread None V') => put cf t None (V' ++ V)
    | _, _ => cf
    end
  end.

Definition wexec (acts : list waction) (cf : wconf) : wconf := fold_left wconf_step acts cf.

End Model.
Arguments wslot T : clear implicits.
Arguments whandle T : clear implicits.
Arguments wpc T : clear implicits.
Arguments wthread T : clear implicits.
Arguments wconf T : clear implicits.
Arguments waction T : clear implicits.
