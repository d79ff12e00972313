(** Programs that share the list of crates/utils/src/linked.rs and also use other memory, with plain
    (non-atomic) reads and writes: a buffer that a thread fills before it pushes a value that refers
    to it, or what is inside an element that has interior mutability.  linked.rs:150-153 makes the
    list [Send] and [Sync] for every element type, so the language lets such programs through.

    The memory model is that of WeakListModel.v; a plain access adds itself to the view of the thread,
    and races with an earlier access to the same location that the view does not have, unless both
    read. *)
From Coq Require Import List Bool PeanoNat.
From Verif Require Import Base ConcListModel WeakListModel.
Import ListNotations.

Section Model.
Context {A : Type}.

(** What a thread does: an action on the list (linked.rs:64-120, 166-175), or a read or a write of the
    location [x]. *)
Inductive daction := OnList (a : action A) | Plain (x : nat) (write : bool).
Inductive devent := DList (e : wevent A) | DAccess (t x : nat) (write : bool).

(** [dbase]: the list and the threads as in WeakListModel.v, each with an empty list of actions when it
    is not inside one; [dtodo]: what the threads have still to do; [dlog]: the plain accesses so far.  No code of its own: the machine. *)
Record dconf := DConf {
  dbase : wconf A; dtodo : list (list daction); dlog : list (nat * nat * bool); dhistory : list devent; draced : bool }.

Definition dinitial (progs : list (list daction)) : dconf :=
  DConf (winitial (map (fun _ => []) progs)) progs [] [] false.

(** The access numbered [n] does not happen before a thread with the view [V].
    No code of its own: the happens-before relation of the language. *)
Definition unseen (V : view) (n : nat) : bool := negb (knows V (EData n)).

(** Is there an access in [log], its first numbered [n], that races with one to [x]?.
    No code of its own: what the language calls a data race. *)
Fixpoint races (V : view) (x : nat) (write : bool) (n : nat) (log : list (nat * nat * bool)) : bool :=
  match log with
  | [] => false
  | (_, y, w) :: log' => ((x =? y) && (write || w) && unseen V n) || races V x write (S n) log'
  end.

Definition set_thread (b : wconf A) (t : nat) (th : wthread A) : wconf A :=
  WConf (wmemory b) (upd (wthreads b) t th) (whistory b) (raced b).

(** A step of the list, with what it adds to the history.  No code of its own: the machine. *)
Definition on_list (cf : dconf) (b b' : wconf A) (todo : list (list daction)) : dconf :=
  DConf b' todo (dlog cf) (dhistory cf ++ map DList (skipn (length (whistory b)) (whistory b'))) (draced cf).

(** Thread [t] takes a step.  No code of its own: the machine. *)
Definition dconf_step (cf : dconf) (choice : nat * bool) : dconf :=
  let '(t, stale) := choice in
  match nth_error (wthreads (dbase cf)) t with
  | None => cf
  | Some th =>
    match wcur th with
    | Some _ => on_list cf (dbase cf) (wconf_step (dbase cf) choice) (dtodo cf)
    | None =>
      match nth t (dtodo cf) [] with
      | [] => cf
      | OnList a :: acts =>
        let b := set_thread (dbase cf) t (WThread [a] None (wview th)) in
        on_list cf b (wconf_step b choice) (upd (dtodo cf) t acts)
      | Plain x w :: acts =>
        DConf (set_thread (dbase cf) t (WThread (wtodo th) None (EData (length (dlog cf)) :: wview th)))
              (upd (dtodo cf) t acts) (dlog cf ++ [(t, x, w)]) (dhistory cf ++ [DAccess t x w])
              (draced cf || races (wview th) x w 0 (dlog cf))
      end
    end
  end.

Definition dexec (sched : list (nat * bool)) (cf : dconf) : dconf := fold_left dconf_step sched cf.

End Model.
Arguments daction A : clear implicits.
Arguments devent A : clear implicits.
Arguments dconf A : clear implicits.
