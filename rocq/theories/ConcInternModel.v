(** Model of crates/utils/src/intern.rs used by any number of threads.  One step is one access
    to a shared location of the interner; an execution is any list of actions.
    Simplifications: accesses interleave sequentially consistently, and the unsynchronised
    accesses to a slot's value are steps of their own (in Rust two of them at once would be a
    data race, see DESIGN.md); reading [self.inner[i]] is part of the step that uses it, and
    [push] is one step that reads the length and one that appends, which is what the theorems
    about the list of linked.rs (PropConcList.v) say of it. *)
From Coq Require Import ZArith List Bool.
From Verif Require Import Base InternModel.
Import ListNotations.
Local Open Scope Z_scope.

Section Model.
Context {T : Type} (eqb : T -> T -> bool) (dbg : bool).

(** A handle: an id that a caller of the interner holds, with the value it was added for.
    [Held b]: [b] calls are using it at the moment; [Leaving]: being given back;
    [Gone]: given back.  crates/utils/src/intern.rs:54 [InternId]. *)
Inductive hstate := Held (b : nat) | Leaving | Gone.
Record handle := Handle { hid : Z; hval : T; hst : hstate }.

(** The calls: [add v], [incr] with handle number [n] (which creates a new handle), [decr] that
    gives handle [n] back, [get] with handle [n].  crates/utils/src/intern.rs:134-193. *)
Inductive icall := CAdd (v : T) | CIncr (n : nat) | CDecr (n : nat) | CGet (n : nat).

(** Where a thread is inside a call.  Between the accesses of crates/utils/src/intern.rs:92-193. *)
Inductive ipc :=
| FindChunk (v : T) (i : nat)              (* intern.rs:97, the iterator loads a next pointer *)
| FindRefs (v : T) (i j : nat)             (* intern.rs:101 *)
| FindVal (v : T) (i j : nat) (count : Z)  (* intern.rs:102-106 *)
| IncrLive (v : T) (i j : nat)             (* intern.rs:143 *)
| IncrDead (v : T) (i j : nat)             (* intern.rs:149 and 163 *)
| SetVal (v : T) (i j : nat)               (* intern.rs:156 and 165 *)
| PushHead (v : T)                         (* intern.rs:160-162, linked.rs:94-98 *)
| PushTail (v : T)                         (* intern.rs:160-162, linked.rs:100 *)
| PushLink (v : T) (len : nat)             (* intern.rs:160-162, linked.rs:101-106 *)
| Incr (n : nat) (k : Z)                   (* intern.rs:187 *)
| Decr (n : nat) (k : Z)                   (* intern.rs:192 *)
| GetRefs (n : nat) (k : Z)                (* intern.rs:174 *)
| GetVal (n : nat) (k : Z)                 (* intern.rs:177 *)
| Broken.                                  (* the call panicked *)

(** The store, the threads (with the call each is inside, if any), the handles created so far,
    and the values that the calls of [get] returned ([None]: it panicked).  crates/utils/src/intern.rs:69-71 and its callers. *)
Record iconf := IConf {
  istore : store T;
  ithreads : list (option ipc);
  handles : list handle;
  reads : list (nat * option T) }.

Inductive action := Begin (t : nat) (c : icall) | Go (t : nat).

(** [n] threads share an interner made by crates/utils/src/intern.rs:84-90 [with_capacity]
    (or by [new], for capacity zero). *)
Definition iinitial (n capacity : nat) : iconf :=
  IConf (with_capacity capacity) (repeat None n) [] [].

Definition set_thread (cf : iconf) (t : nat) (p : option ipc) : iconf :=
  IConf (istore cf) (upd (ithreads cf) t p) (handles cf) (reads cf).
Definition set_store (cf : iconf) (st : store T) : iconf :=
  IConf st (ithreads cf) (handles cf) (reads cf).
Definition set_handle (cf : iconf) (n : nat) (s : hstate) : iconf :=
  match nth_error (handles cf) n with
  | Some h => IConf (istore cf) (ithreads cf) (upd (handles cf) n (Handle (hid h) (hval h) s)) (reads cf)
  | None => cf
  end.
Definition add_handle (cf : iconf) (k : Z) (v : T) : iconf :=
  IConf (istore cf) (ithreads cf) (handles cf ++ [Handle k v (Held 0)]) (reads cf).
Definition add_read (cf : iconf) (n : nat) (o : option T) : iconf :=
  IConf (istore cf) (ithreads cf) (handles cf) (reads cf ++ [(n, o)]).

(** Thread [t] makes a call.  A handle that was given back, or is being given back, cannot be
    used; one that is in use cannot be given back; then nothing happens.
    No code of its own: callers of crates/utils/src/intern.rs:134-193. *)
Definition begin_call (cf : iconf) (t : nat) (c : icall) : iconf :=
  match c with
  | CAdd v => set_thread cf t (Some (FindChunk v 0))
  | CIncr n =>
    match nth_error (handles cf) n with
    | Some (Handle k _ (Held b)) => set_thread (set_handle cf n (Held (b + 1))) t (Some (Incr n k))
    | _ => cf
    end
  | CDecr n =>
    match nth_error (handles cf) n with
    | Some (Handle k _ (Held O)) => set_thread (set_handle cf n Leaving) t (Some (Decr n k))
    | _ => cf
    end
  | CGet n =>
    match nth_error (handles cf) n with
    | Some (Handle k _ (Held b)) => set_thread (set_handle cf n (Held (b + 1))) t (Some (GetRefs n k))
    | _ => cf
    end
  end.

(** The call is over: thread [t] is free again.  No code of its own: the machine. *)
Definition finish (cf : iconf) (t : nat) : iconf := set_thread cf t None.

(** The call no longer uses handle [n].  No code of its own: ownership of ids in callers. *)
Definition unborrow (cf : iconf) (n : nat) : iconf :=
  match nth_error (handles cf) n with
  | Some (Handle _ _ (Held b)) => set_handle cf n (Held (b - 1))
  | _ => cf
  end.

(** A step that changes the store, or panics.  No code of its own: the machine. *)
Definition with_store (cf : iconf) (t : nat) (r : res (store T)) (k : iconf -> iconf) : iconf :=
  match r with
  | Ok st => k (set_store cf st)
  | _ => set_thread cf t (Some Broken)
  end.

(** Thread [t], inside a call at [p], takes a step: crates/utils/src/intern.rs:92-193. *)
Definition istep (cf : iconf) (t : nat) (p : ipc) : iconf :=
  let goto q := set_thread cf t (Some q) in
  match p with
  | FindChunk v i =>
    if Nat.ltb i (length (istore cf)) then goto (FindRefs v i 0) else goto (PushHead v)
  | FindRefs v i j =>
    match slot_at (istore cf) i j with
    | Ok s => goto (FindVal v i j (refs s))
    | _ => goto Broken
    end
  | FindVal v i j count =>
    match slot_at (istore cf) i j with
    | Ok s =>
      if match cont s with Some cur => eqb v cur | None => false end then goto (IncrLive v i j)
      else if count =? 0 then goto (IncrDead v i j)
      else if Nat.ltb (S j) chunk_size then goto (FindRefs v i (S j))
      else goto (FindChunk v (S i))
    | _ => goto Broken
    end
  | IncrLive v i j =>
    with_store cf t (incr_inner dbg (istore cf) i j)
      (fun cf => finish (add_handle cf (idx_to_offset i j) v) t)
  | IncrDead v i j =>
    with_store cf t (incr_inner dbg (istore cf) i j)
      (fun cf => set_thread cf t (Some (SetVal v i j)))
  | SetVal v i j =>
    with_store cf t (set_val (istore cf) i j v)
      (fun cf => finish (add_handle cf (idx_to_offset i j) v) t)
  | PushHead v =>
    match istore cf with
    | [] => set_thread (set_store cf [new_chunk]) t (Some (IncrDead v 0 0))
    | _ => goto (PushTail v)
    end
  | PushTail v => goto (PushLink v (length (istore cf)))
  | PushLink v len =>
    set_thread (set_store cf (istore cf ++ [new_chunk])) t (Some (IncrDead v (len + 1 - 1) 0))
  | Incr n k =>
    with_store cf t (intern_incr dbg k (istore cf))
      (fun cf =>
         match nth_error (handles cf) n with
         | Some h => finish (add_handle (unborrow cf n) k (hval h)) t
         | None => cf
         end)
  | Decr n k =>
    with_store cf t (intern_decr k (istore cf)) (fun cf => finish (set_handle cf n Gone) t)
  | GetRefs n k =>
    match refcount (istore cf) k with
    | Ok c => if c =? 0 then finish (unborrow (add_read cf n None) n) t else goto (GetVal n k)
    | _ => goto Broken
    end
  | GetVal n k =>
    match (let '(i, j) := offset_to_idx k in slot_at (istore cf) i j) with
    | Ok s =>
      match cont s with
      | Some v => finish (unborrow (add_read cf n (Some v)) n) t
      | None => goto Broken
      end
    | _ => goto Broken
    end
  | Broken => cf
  end.

Definition iconf_step (cf : iconf) (a : action) : iconf :=
  match a with
  | Begin t c =>
    match nth_error (ithreads cf) t with
    | Some None => begin_call cf t c
    | _ => cf
    end
  | Go t =>
    match nth_error (ithreads cf) t with
    | Some (Some p) => istep cf t p
    | _ => cf
    end
  end.

Definition iexec (acts : list action) (cf : iconf) : iconf := fold_left iconf_step acts cf.

End Model.
Arguments hstate : clear implicits.
Arguments handle T : clear implicits.
Arguments icall T : clear implicits.
Arguments ipc T : clear implicits.
Arguments iconf T : clear implicits.
Arguments action T : clear implicits.
