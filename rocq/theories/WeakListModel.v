(** Model of crates/utils/src/linked.rs under a weak memory model: release, acquire and relaxed
    accesses as written in the source, stale reads, and data races on the freshly initialised
    nodes.  The semantics is the usual view-based one for the release/acquire/relaxed fragment of
    C11 (without load buffering): a message carries the view of the thread that released it, an
    acquire load joins the view of the message it reads, a load may return any message not older
    than what the thread has seen at that location.

    Every pointer in this file is written twice: null when its node (or the list) is created, and
    once more by a successful [compare_exchange] from null.  So a message is the null or that one
    pointer, and a view is the set of the pointer writes and node initialisations that the thread
    has seen.  The strong [compare_exchange] from null reads the latest message (reading the null
    when it is not the latest would have to succeed, and then not be atomic).

    As in ConcListModel.v: allocation never fails, addresses are not reused, [usize] lengths do
    not overflow.  The positions inside the functions are those of ConcListModel.v. *)
From Coq Require Import List Bool PeanoNat.
From Verif Require Import Base ConcListModel.
Import ListNotations.

(** What a thread can have seen: the initialisation of a node (linked.rs:13-18), the exchange of
    the head (linked.rs:94-97), the exchange of the [next] of a node (linked.rs:23); and an access to
    other memory, which no step in this file makes (see WeakDataModel.v). *)
Inductive ev := EInit (a : nat) | EHead | ENext (a : nat) | EData (n : nat).
Definition ev_eqb (x y : ev) : bool :=
  match x, y with
  | EInit a, EInit b => a =? b
  | EHead, EHead => true
  | ENext a, ENext b => a =? b
  | EData a, EData b => a =? b
  | _, _ => false
  end.
Definition view := list ev.
Definition knows (V : view) (e : ev) : bool := existsb (ev_eqb e) V.

Section Model.
Context {A : Type}.

(** linked.rs:7-10 [Node] and 53-55 [UnsyncLinked]: a pointer is the latest message of its
    location, [None] for the initial null. *)
Record wnode := WNode { wval : A; wnext : option (nat * view) }.
Record wmem := WMem { whead : option (nat * view); wheap : list wnode }.

(** What a step of a call leads to; [WRace]: an access to a node whose initialisation does not
    happen before it, which is undefined behaviour.  No code of its own: the machine. *)
Inductive wout := WNext (p : pc A) | WDone (r : result A) | WRace.

(** A load from the location [loc] whose latest message is [cell].  [stale]: read the old null if
    the thread may still see it.  The loads of crates/utils/src/linked.rs:27-120. *)
Definition load_at (loc : ev) (cell : option (nat * view)) (acq stale : bool) (V : view) : option nat * view :=
  match cell with
  | None => (None, V)
  | Some (a, mv) =>
    if stale && negb (knows V loc) then (None, V)
    else (Some a, loc :: (if acq then mv else []) ++ V)
  end.

(** Any access to a node, to its [next] or its [val] (linked.rs:27-30, 47-50). *)
Definition access (m : wmem) (V : view) (a : nat) (k : wnode -> wout * view) : wout * view :=
  match nth_error (wheap m) a with
  | None => (WNext Crash, V)
  | Some x => if knows V (EInit a) then k x else (WRace, V)
  end.

(** linked.rs:33-40 [get_next_opt] (acquire) and the relaxed loads of [next]. *)
Definition wload_next (m : wmem) (V : view) (a : nat) (acq stale : bool) (k : option nat -> wout) : wout * view :=
  access m V a (fun x => let '(r, V') := load_at (ENext a) (wnext x) acq stale V in (k r, V')).

Definition of_sum (s : pc A + result A) : wout := match s with inl p => WNext p | inr r => WDone r end.

(** One step inside a call (linked.rs:64-120 and 166-175). *)
Definition wmicro (stale : bool) (p : pc A) (m : wmem) (V : view) : wout * wmem * view :=
  match p with
  | PushNew v =>
    let n := length (wheap m) in
    (WNext (PushHead v n), WMem (whead m) (wheap m ++ [WNode v None]), EInit n :: V)
  | PushHead v n =>                                              (* AcqRel / Acquire *)
    match whead m with
    | None => (WDone (RNat 1), WMem (Some (n, EHead :: V)) (wheap m), EHead :: V)
    | Some (_, mv) => (WNext (TailHead (ForPush v n)), m, EHead :: mv ++ V)
    end
  | TailHead k =>                                                (* Relaxed *)
    let '(r, V') := load_at EHead (whead m) false stale V in
    (match r with
     | None => match k with ForPush _ _ => WNext Crash | ForLen => WDone (RNat 0) end
     | Some a => WNext (TailNext k a 1)
     end, m, V')
  | TailNext k cur len =>                                        (* Acquire *)
    let '(o, V') := wload_next m V cur true stale
      (fun nx => match nx with None => of_sum (tail_found k cur len) | Some _ => WNext (TailLoad k cur len) end) in
    (o, m, V')
  | TailLoad k cur len =>                                        (* Relaxed *)
    let '(o, V') := wload_next m V cur false stale
      (fun nx => match nx with None => WNext Crash | Some a => WNext (TailNext k a (len + 1)) end) in
    (o, m, V')
  | PushCas v n tail len =>                                      (* AcqRel / Acquire *)
    match nth_error (wheap m) tail with
    | None => (WNext Crash, m, V)
    | Some x =>
      if knows V (EInit tail) then
        match wnext x with
        | None =>
          (WDone (RNat (len + 1)),
           WMem (whead m) (upd (wheap m) tail (WNode (wval x) (Some (n, ENext tail :: V)))), ENext tail :: V)
        | Some (_, mv) => (WNext (PushRetry v n tail len), m, ENext tail :: mv ++ V)
        end
      else (WRace, m, V)
    end
  | PushRetry v n tail len =>                                    (* Acquire *)
    let '(o, V') := wload_next m V tail true stale
      (fun nx => match nx with None => WNext (PushCas v n tail len) | Some _ => WNext (PushReload v n tail len) end) in
    (o, m, V')
  | PushReload v n tail len =>                                   (* Relaxed *)
    let '(o, V') := wload_next m V tail false stale
      (fun nx => match nx with None => WNext Crash | Some a => WNext (PushCas v n a len) end) in
    (o, m, V')
  | EmptyHead =>                                                 (* Acquire *)
    let '(r, V') := load_at EHead (whead m) true stale V in
    (WDone (RBool (match r with None => true | Some _ => false end)), m, V')
  | GetHead i =>                                                 (* Acquire *)
    let '(r, V') := load_at EHead (whead m) true stale V in
    (match r with None => WDone (ROpt None) | Some a => WNext (GetNext i a i) end, m, V')
  | GetNext i cur 0 =>
    let '(o, V') := access m V cur (fun x => (WDone (ROpt (Some (wval x))), V)) in (o, m, V')
  | GetNext i cur (S k) =>                                       (* Acquire *)
    let '(o, V') := wload_next m V cur true stale
      (fun nx => match nx with None => WDone (ROpt None) | Some _ => WNext (GetLoad i cur k) end) in
    (o, m, V')
  | GetLoad i cur k =>                                           (* Relaxed *)
    let '(o, V') := wload_next m V cur false stale
      (fun nx => match nx with None => WNext Crash | Some a => WNext (GetNext i a k) end) in
    (o, m, V')
  | IterAt loc acc =>                                            (* Acquire *)
    let finish r V' :=
      match r with
      | None => (WDone (RList acc), V')
      | Some a => access m V' a (fun x => (WNext (IterAt (Some a) (acc ++ [wval x])), V'))
      end in
    let '(o, V') :=
      match loc with
      | None => let '(r, V') := load_at EHead (whead m) true stale V in finish r V'
      | Some a => access m V a (fun x => let '(r, V') := load_at (ENext a) (wnext x) true stale V in finish r V')
      end in
    (o, m, V')
  | Crash => (WNext Crash, m, V)
  end.

(** What a thread does: calls, and synchronising with another thread by other means ([join], a
    lock, a channel): afterwards it has seen all that the other had seen.
    No code of its own: callers of crates/utils/src/linked.rs:82-130. *)
Inductive action := Do (c : call A) | Sync (u : nat).
Inductive wevent := WInv (t : nat) (c : call A) | WRet (t : nat) (c : call A) (r : result A) | WSynced (t u : nat).

Record wthread := WThread { wtodo : list action; wcur : option (call A * pc A); wview : view }.
Record wconf := WConf { wmemory : wmem; wthreads : list wthread; whistory : list wevent; raced : bool }.

(** Initially the list is empty, nothing has been called, and the threads have seen the creation
    of the list.  crates/utils/src/linked.rs:53-62. *)
Definition winitial (progs : list (list action)) : wconf :=
  WConf (WMem None []) (map (fun p => WThread p None []) progs) [] false.

Definition view_of (cf : wconf) (u : nat) : view :=
  match nth_error (wthreads cf) u with Some th => wview th | None => [] end.

(** Thread [t] takes a step.  No code of its own: the machine. *)
Definition wconf_step (cf : wconf) (choice : nat * bool) : wconf :=
  let '(t, stale) := choice in
  match nth_error (wthreads cf) t with
  | None => cf
  | Some th =>
    match wcur th with
    | None =>
      match wtodo th with
      | [] => cf
      | Do c :: acts =>
        WConf (wmemory cf) (upd (wthreads cf) t (WThread acts (Some (c, start c)) (wview th)))
              (whistory cf ++ [WInv t c]) (raced cf)
      | Sync u :: acts =>
        WConf (wmemory cf) (upd (wthreads cf) t (WThread acts None (view_of cf u ++ wview th)))
              (whistory cf ++ [WSynced t u]) (raced cf)
      end
    | Some (c, p) =>
      match wmicro stale p (wmemory cf) (wview th) with
      | (WNext p', m', V') =>
        WConf m' (upd (wthreads cf) t (WThread (wtodo th) (Some (c, p')) V')) (whistory cf) (raced cf)
      | (WDone r, m', V') =>
        WConf m' (upd (wthreads cf) t (WThread (wtodo th) None V')) (whistory cf ++ [WRet t c r]) (raced cf)
      | (WRace, m', V') =>
        WConf m' (upd (wthreads cf) t (WThread (wtodo th) (Some (c, Crash)) V')) (whistory cf) true
      end
    end
  end.

Definition wexec (sched : list (nat * bool)) (cf : wconf) : wconf := fold_left wconf_step sched cf.

(** linked.rs:139-148 [Drop], by a thread with view [V], all loads relaxed; the list is its own,
    so the other threads' accesses happen before.  [stales]: the choices of the loads, one per
    load. *)
Inductive wdropped := WFreed (hp : list (option wnode)) (vals : list A) | WBadFree | WDropRace | WMore.
Fixpoint wdrop_loop (stales : list bool) (hp : list (option wnode)) (cur : option nat) (V : view) (vals : list A)
  : wdropped :=
  match cur, stales with
  | None, _ => WFreed hp vals
  | Some _, [] => WMore
  | Some a, s :: stales' =>
    match nth_error hp a with
    | Some (Some x) =>
      if knows V (EInit a) then
        let '(r, V') := load_at (ENext a) (wnext x) false s V in
        wdrop_loop stales' (upd hp a None) r V' (vals ++ [wval x])
      else WDropRace
    | _ => WBadFree
    end
  end.
Definition wdrop (stale : bool) (stales : list bool) (m : wmem) (V : view) : wdropped :=
  let '(r, V') := load_at EHead (whead m) false stale V in
  wdrop_loop stales (map Some (wheap m)) r V' [].

End Model.
Arguments wnode A : clear implicits.
Arguments wmem A : clear implicits.
Arguments wout A : clear implicits.
Arguments action A : clear implicits.
Arguments wevent A : clear implicits.
Arguments wthread A : clear implicits.
Arguments wconf A : clear implicits.
Arguments wdropped A : clear implicits.
