(** Arithmetic on BigInts by several threads under weak memory: the programs of ConcArithModel.v, which stop at every call of the
    interner, run on the interner of WeakChunkModel.v.  Simplified as those; in particular BigInts are passed between threads before
    the evaluations begin only. *)
From Coq Require Import ZArith List Bool PeanoNat.
From Verif Require Import Base BitSliceModel BigIntModel BigIntExprModel ConcInternModel ConcBigIntModel ConcArithModel WeakInternModel WeakChunkModel.
Import ListNotations.
Local Open Scope Z_scope.

(** What the callers of the interner have to do with: the call each thread is inside (crates/utils/src/intern.rs:92-193), the handles, and
    what [get] returned; the memory itself is left out. *)
Definition seen_call (p : wpc (list Z)) : ipc (list Z) :=
  match p with
  | WFindRefs v _ | WFindVal v _ _ | WIncrLive v _ | WIncrDead v _ | WSetVal v _ | WPush v => FindChunk v 0
  | WIncr m k => Incr m (Z.of_nat k)
  | WDecr m k => Decr m (Z.of_nat k)
  | WGetRefs m k | WGetVal m k => GetVal m (Z.of_nat k)
  | WBroken => Broken
  end.
Definition seen_handle (h : whandle (list Z)) : handle (list Z) := Handle (Z.of_nat (whid h)) (whval h) (whst h).
Definition seen (cf : wconf (list Z)) : iconf (list Z) :=
  IConf [] (map (fun th => option_map seen_call (wpos th)) (wthreads cf)) (map seen_handle (whandles cf)) (wreads cf).

(** The static interner (crates/ints/src/big_int.rs:28), empty at first, used by [n] threads; with [locked], every call of [add] is made
    with a lock held, which the code does not have. *)
Definition wrun (locked : bool) (n : nat) (acts : list (waction (list Z) * bool)) : cconf (list Z) := cexec list_eqb locked acts (cinitial n 0).
Definition now (locked : bool) (n : nat) (acts : list (waction (list Z) * bool)) : wconf (list Z) := cbase (wrun locked n acts).

(** The actions so far, what each thread has still to do, and the handles it owns.  No code of its own: the machine. *)
Record wbconf (A : Type) := WBConf {
  wdone : list (waction (list Z) * bool);
  wprogs : list (prog A);
  wowned : list (list nat) }.
Arguments WBConf {A}. Arguments wdone {A}. Arguments wprogs {A}. Arguments wowned {A}.

(** Thread [t] takes a step ([m]: the handle of the next call; [pick], [stale]: what loads return, see WeakChunkModel.v), or learns what
    thread [u] has done.  No code of its own: the machine. *)
Inductive wmove := Step (t m pick : nat) (stale : bool) | Learn (t u : nat).

Definition wbstep {A} (locked : bool) (n : nat) (vs : list nat) (bc : wbconf A) (a : wmove) : wbconf A :=
  match a with
  | Learn t u => WBConf (wdone bc ++ [(WSync t u, false)]) (wprogs bc) (wowned bc)
  | Step t m pick stale =>
    let cf := now locked n (wdone bc) in
    match nth_error (wthreads cf) t, nth_error (wprogs bc) t, nth_error (wowned bc) t with
    | Some (WThread None _), Some p, Some ms =>
      match next_call (seen cf) vs ms p m with
      | Some c => WBConf (wdone bc ++ [(WBegin t c, stale)]) (wprogs bc) (wowned bc)
      | None => bc
      end
    | Some (WThread (Some q) _), Some p, Some ms =>
      let done := wdone bc ++ [(WGo t pick, stale)] in
      let cf' := now locked n done in
      match nth_error (wthreads cf') t with
      | Some (WThread None _) =>
        let '(p', ms') := resume (seen cf) (seen cf') (seen_call q) ms p in
        WBConf done (upd (wprogs bc) t p') (upd (wowned bc) t ms')
      | _ => WBConf done (wprogs bc) (wowned bc)
      end
    | _, _, _ => bc
    end
  end.

Definition wbexec {A} (locked : bool) (n : nat) (vs : list nat) (sched : list wmove) (bc : wbconf A) : wbconf A :=
  fold_left (wbstep locked n vs) sched bc.

(** After [acts], which left the BigInts [vars], thread number [t] begins to evaluate the [t]-th of [es].
    No code of its own: the machine. *)
Definition wbstart (dbg : bool) (fuel : nat) (acts : list (waction (list Z) * bool)) (vars : list Z) (es : list expr) : wbconf Z :=
  WBConf acts (map (p_eval dbg fuel vars) es) (repeat [] (length es)).
