(** Model of crates/utils/src/linked.rs (the lock-free append-only list) used by any number of
    threads.  One step is one atomic memory access (or one allocation); a schedule is the list
    of the threads that take the next step.  Simplifications: the accesses interleave
    sequentially consistently, whatever ordering is written in the source (the second, relaxed
    load of a pointer that was just seen non-null reads a location that is written only once);
    allocation never fails and addresses are never reused (nodes are freed only by [drop],
    which has exclusive access); [usize] lengths do not overflow. *)
From Coq Require Import List Bool PeanoNat.
From Verif Require Import Base.
Import ListNotations.

Section Model.
Context {A : Type}.

(** crates/utils/src/linked.rs:7-10 [Node]; pointers are positions in the heap, [None] is
    null. *)
Record node := Node { nval : A; nnext : option nat }.

(** crates/utils/src/linked.rs:53-55 [UnsyncLinked], with the memory its nodes live in. *)
Record mem := Mem { head : option nat; heap : list node }.

(** crates/utils/src/linked.rs:58-62 [UnsyncLinked::new]. *)
Definition mem_new : mem := Mem None [].

(** The calls that a thread can make, and their results.  crates/utils/src/linked.rs:82-130. *)
Inductive call := Push (v : A) | Get (i : nat) | IterAll | Len | IsEmpty.
Inductive result := RNat (n : nat) | ROpt (o : option A) | RList (l : list A) | RBool (b : bool).

(** Who asked for the tail: [push] with its value and its unlinked node, or [len].  crates/utils/src/linked.rs:64, called in 82 and 92. *)
Inductive asker := ForPush (v : A) (n : nat) | ForLen.

(** Where a thread is inside a call.  Between the accesses of crates/utils/src/linked.rs:64-130, 155-180. *)
Inductive pc :=
| PushNew (v : A)                              (* linked.rs:93, allocate *)
| PushHead (v : A) (n : nat)                   (* linked.rs:94-98, exchange of the head *)
| TailHead (k : asker)                         (* linked.rs:65, load the head *)
| TailNext (k : asker) (cur len : nat)         (* linked.rs:73 via 35, load next *)
| TailLoad (k : asker) (cur len : nat)         (* linked.rs:74, load next again *)
| PushCas (v : A) (n tail len : nat)           (* linked.rs:101 via 23, exchange of next *)
| PushRetry (v : A) (n tail len : nat)         (* linked.rs:102 via 35 *)
| PushReload (v : A) (n tail len : nat)        (* linked.rs:103 *)
| EmptyHead                                    (* linked.rs:88 *)
| GetHead (i : nat)                            (* linked.rs:112 *)
| GetNext (i cur k : nat)                      (* linked.rs:117 via 35, k rounds left; 119 *)
| GetLoad (i cur k : nat)                      (* linked.rs:117, load *)
| IterAt (loc : option nat) (acc : list A)     (* linked.rs:167; None: the head field *)
| Crash.                                       (* a null or dangling pointer was followed *)

(** The first thing done by [push] (linked.rs:92), [get] (linked.rs:111), a loop over [iter]
    (linked.rs:122), [len] (linked.rs:82) and [is_empty] (linked.rs:87). *)
Definition start (c : call) : pc :=
  match c with
  | Push v => PushNew v
  | Get i => GetHead i
  | IterAll => IterAt None []
  | Len => TailHead ForLen
  | IsEmpty => EmptyHead
  end.

(** crates/utils/src/linked.rs:27-40 [get_next] and the load behind it: following a pointer
    that does not point to an allocated node is a crash. *)
Definition load_next (m : mem) (a : nat) (k : option nat -> pc + result) : pc + result :=
  match nth_error (heap m) a with Some x => k (nnext x) | None => inl Crash end.

(** crates/utils/src/linked.rs:21-25 [set_next], the store of a successful exchange. *)
Definition store_next (m : mem) (a n : nat) : mem :=
  match nth_error (heap m) a with
  | Some x => Mem (head m) (upd (heap m) a (Node (nval x) (Some n)))
  | None => m
  end.

(** What happens when crates/utils/src/linked.rs:64-79 [tail] returns. *)
Definition tail_found (k : asker) (tail len : nat) : pc + result :=
  match k with
  | ForPush v n => inl (PushCas v n tail len)
  | ForLen => inr (RNat len)
  end.

(** The location read by the iterator (crates/utils/src/linked.rs:155-176). *)
Definition load_loc (m : mem) (loc : option nat) (k : option nat -> pc + result) : pc + result :=
  match loc with None => k (head m) | Some a => load_next m a k end.

(** One step inside a call: the next position, or the result of the call
    (crates/utils/src/linked.rs:64-120 and 166-175). *)
Definition micro (p : pc) (m : mem) : (pc + result) * mem :=
  match p with
  | PushNew v => (inl (PushHead v (length (heap m))), Mem (head m) (heap m ++ [Node v None]))
  | PushHead v n =>
    match head m with
    | None => (inr (RNat 1), Mem (Some n) (heap m))
    | Some _ => (inl (TailHead (ForPush v n)), m)
    end
  | TailHead k =>
    (match head m with
     | None => match k with ForPush _ _ => inl Crash | ForLen => inr (RNat 0) end
     | Some a => inl (TailNext k a 1)
     end, m)
  | TailNext k cur len =>
    (load_next m cur (fun nx => match nx with
                                | None => tail_found k cur len
                                | Some _ => inl (TailLoad k cur len)
                                end), m)
  | TailLoad k cur len =>
    (load_next m cur (fun nx => match nx with
                                | None => inl Crash
                                | Some a => inl (TailNext k a (len + 1))
                                end), m)
  | PushCas v n tail len =>
    match load_next m tail (fun nx => match nx with
                                      | None => inr (RNat (len + 1))
                                      | Some _ => inl (PushRetry v n tail len)
                                      end) with
    | inr r => (inr r, store_next m tail n)
    | inl p' => (inl p', m)
    end
  | PushRetry v n tail len =>
    (load_next m tail (fun nx => match nx with
                                 | None => inl (PushCas v n tail len)
                                 | Some _ => inl (PushReload v n tail len)
                                 end), m)
  | PushReload v n tail len =>
    (load_next m tail (fun nx => match nx with
                                 | None => inl Crash
                                 | Some a => inl (PushCas v n a len)
                                 end), m)
  | EmptyHead => (inr (RBool (match head m with None => true | Some _ => false end)), m)
  | GetHead i =>
    (match head m with
     | None => inr (ROpt None)
     | Some a => inl (GetNext i a i)
     end, m)
  | GetNext i cur 0 =>
    (match nth_error (heap m) cur with
     | Some x => inr (ROpt (Some (nval x)))
     | None => inl Crash
     end, m)
  | GetNext i cur (S k) =>
    (load_next m cur (fun nx => match nx with
                                | None => inr (ROpt None)
                                | Some _ => inl (GetLoad i cur k)
                                end), m)
  | GetLoad i cur k =>
    (load_next m cur (fun nx => match nx with
                                | None => inl Crash
                                | Some a => inl (GetNext i a k)
                                end), m)
  | IterAt loc acc =>
    (load_loc m loc (fun nx => match nx with
                               | None => inr (RList acc)
                               | Some a =>
                                 match nth_error (heap m) a with
                                 | Some x => inl (IterAt (Some a) (acc ++ [nval x]))
                                 | None => inl Crash
                                 end
                               end), m)
  | Crash => (inl Crash, m)
  end.

(** What the threads see: calls being made and calls returning.  No code of its own: the machine. *)
Inductive event := Inv (t : nat) (c : call) | Ret (t : nat) (c : call) (r : result).

(** A thread: the calls still to make and the call in progress.  A configuration: the memory,
    the threads, and the calls and returns so far.  No code of its own: the machine. *)
Record thread := Thread { todo : list call; cur : option (call * pc) }.
Record conf := Conf { memory : mem; threads : list thread; history : list event }.

(** Initially the list is empty and nothing has been called.  crates/utils/src/linked.rs:53-62. *)
Definition initial (progs : list (list call)) : conf :=
  Conf mem_new (map (fun p => Thread p None) progs) [].

(** Thread [t] takes a step: it begins its next call, or continues the one in progress.  No code of its own: the machine. *)
Definition thread_step (t : nat) (th : thread) (m : mem) : thread * mem * list event :=
  match cur th with
  | None =>
    match todo th with
    | [] => (th, m, [])
    | c :: cs => (Thread cs (Some (c, start c)), m, [Inv t c])
    end
  | Some (c, p) =>
    match micro p m with
    | (inl p', m') => (Thread (todo th) (Some (c, p')), m', [])
    | (inr r, m') => (Thread (todo th) None, m', [Ret t c r])
    end
  end.

Definition conf_step (cf : conf) (t : nat) : conf :=
  match nth_error (threads cf) t with
  | None => cf
  | Some th =>
    let '(th', m', es) := thread_step t th (memory cf) in
    Conf m' (upd (threads cf) t th') (history cf ++ es)
  end.

Definition exec (sched : list nat) (cf : conf) : conf := fold_left conf_step sched cf.

(** crates/utils/src/linked.rs:139-148 [Drop], which has the list to itself: a freed node is
    [None] in the heap.  The result: the heap and the values dropped, in order; or a pointer
    that is not that of a live allocation was freed; or the loop needs more than [fuel]
    rounds. *)
Inductive dropped := Freed (hp : list (option node)) (vals : list A) | BadFree | More.
Fixpoint drop_loop (fuel : nat) (hp : list (option node)) (cur : option nat) (vals : list A) : dropped :=
  match cur, fuel with
  | None, _ => Freed hp vals
  | Some _, O => More
  | Some a, S fuel' =>
    match nth_error hp a with
    | Some (Some x) => drop_loop fuel' (upd hp a None) (nnext x) (vals ++ [nval x])
    | _ => BadFree
    end
  end.
Definition drop_list (fuel : nat) (m : mem) : dropped := drop_loop fuel (map Some (heap m)) (head m) [].

(** crates/utils/src/linked.rs:130-137 [Index], from what [get] answered. *)
Definition index_result (r : result) : res A :=
  match r with ROpt (Some v) => Ok v | _ => Panic end.

End Model.
Arguments node A : clear implicits.
Arguments mem A : clear implicits.
Arguments call A : clear implicits.
Arguments result A : clear implicits.
Arguments pc A : clear implicits.
Arguments asker A : clear implicits.
Arguments thread A : clear implicits.
Arguments conf A : clear implicits.
Arguments event A : clear implicits.
Arguments dropped A : clear implicits.
