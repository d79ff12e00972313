(** The interner (crates/utils/src/intern.rs) with the code of its element type: [add] runs
    [PartialEq::eq] (line 102), [Into::into] (lines 156,165) and the destructor of the value it
    replaces (line 48), and that code may call the interner again or panic; panics may be caught.
    One thread.  The interner's data is that of InternModel.v. *)
From Coq Require Import ZArith List Bool.
From Verif Require Import Base InternModel InternSpec.
Import ListNotations.
Local Open Scope Z_scope.

(** A call of the interner's API, with what the element's code does during it.  [CAdd v cmps conv
    drp] is [add(v)] (crates/utils/src/intern.rs:134-169) of which the n-th comparison also does
    what the n-th of [cmps] says (nothing, beyond the list), the conversion what [conv] says and the
    destructor of a replaced value what [drp] says.  [CCatch cs] makes the calls [cs] under
    [catch_unwind].  [Code cs p] makes the calls [cs] and then panics if [p]. *)
Inductive call (T : Type) : Type :=
| CAdd (v : T) (cmps : list (code T)) (conv drp : code T)
| CIncr (k : Z)
| CDecr (k : Z)
| CGet (k : Z)
| CCatch (cs : list (call T))
with code (T : Type) : Type := Code (cs : list (call T)) (panics : bool).
Arguments CAdd {T} v cmps conv drp.
Arguments CIncr {T} k.
Arguments CDecr {T} k.
Arguments CGet {T} k.
Arguments CCatch {T} cs.
Arguments Code {T} cs panics.

(** What [get] gives: the value, a panic (no such slot, or no reference to it), or undefined
    behaviour ([unwrap_unchecked] on [None], crates/utils/src/intern.rs:38-41). *)
Inductive seen (T : Type) := Seen (v : T) | Refused | Undefined.
Arguments Seen {T} v.
Arguments Refused {T}.
Arguments Undefined {T}.

(** crates/utils/src/intern.rs:171-183 [get]. *)
Definition look {T} (st : store T) (k : Z) : seen T :=
  let '(i, j) := offset_to_idx k in
  match slot_at st i j with
  | Ok s => if refs s =? 0 then Refused
            else match cont s with Some v => Seen v | None => Undefined end
  | _ => Refused
  end.

(** The interner, the calls that have returned (in the order of their returns), what the calls of
    [get] gave (each with the calls that had returned before it), and how many calls of [add] have
    panicked.  No code of its own: crates/utils/src/intern.rs:69-71 with a history. *)
Record world (T : Type) := World {
  ws : store T; wt : list (event T); wr : list (list (event T) * Z * seen T); wb : Z }.
Arguments World {T} ws wt wr wb.
Arguments ws {T} w.
Arguments wt {T} w.
Arguments wr {T} w.
Arguments wb {T} w.

Definition with_store {T} (w : world T) (st : store T) : world T := World st (wt w) (wr w) (wb w).
Definition log {T} (w : world T) (e : event T) : world T := World (ws w) (wt w ++ [e]) (wr w) (wb w).
Definition broken {T} (w : world T) : world T := World (ws w) (wt w) (wr w) (wb w + 1).

(** How a piece of code ends: it returns, it unwinds, or the model's fuel is used up.  No code of its own. *)
Inductive ends := Returns | Unwinds | Spent.

(** crates/utils/src/intern.rs:112-116 [incr_inner] on slot [j] of chunk [i]: the count is
    incremented (and wraps) before the debug assertion panics. *)
Definition bump {T} (dbg : bool) (st : store T) (i j : nat) : ends * store T :=
  match slot_at st i j with
  | Ok s => (if dbg && (refs s =? 2 ^ 64 - 1) then Unwinds else Returns,
             slot_put st i j (Slot ((refs s + 1) mod 2 ^ 64) (cont s)))
  | _ => (Unwinds, st)
  end.

(** crates/utils/src/intern.rs:47-49 [set_val], the write itself. *)
Definition write {T} (st : store T) (i j : nat) (v : T) : store T :=
  match slot_at st i j with Ok s => slot_put st i j (Slot (refs s) (Some v)) | _ => st end.

Section Run.
Context {T : Type}.
Variables (eqb : T -> T -> bool) (dbg : bool).

Fixpoint run_calls (fuel : nat) (cs : list (call T)) (w : world T) : ends * world T :=
  match fuel with
  | O => (Spent, w)
  | S f =>
    match cs with
    | [] => (Returns, w)
    | c :: cs' =>
      match run_call f c w with
      | (Returns, w) => run_calls f cs' w
      | other => other
      end
    end
  end

(** A piece of the element's code.
    The [PartialEq], [Into] and [Drop] of the element type, called in crates/utils/src/intern.rs:48, 102, 156, 165. *)
with run_code (fuel : nat) (cd : code T) (w : world T) : ends * world T :=
  match fuel with
  | O => (Spent, w)
  | S f =>
    let '(Code cs p) := cd in
    match run_calls f cs w with
    | (Returns, w) => (if p then Unwinds else Returns, w)
    | other => other
    end
  end

(** crates/utils/src/intern.rs:92-110 [find] from slot [j] of chunk [i] on: the count is loaded
    before the comparison, and the list of chunks is read as the loop advances. *)
with run_find (fuel : nat) (v : T) (cmps : list (code T)) (i j : nat) (w : world T)
  : option found * ends * world T :=
  match fuel with
  | O => (None, Spent, w)
  | S f =>
    match nth_error (ws w) i with
    | None => (Some Nothing, Returns, w)
    | Some c =>
      match nth_error c j with
      | None => run_find f v cmps (S i) 0 w
      | Some s =>
        let count := refs s in
        match cont s with
        | None => if count =? 0 then (Some (Dead i j), Returns, w) else run_find f v cmps i (S j) w
        | Some cur =>
          match run_code f (hd (Code [] false) cmps) w with
          | (Returns, w) =>
            if eqb v cur then (Some (Exists i j), Returns, w)
            else if count =? 0 then (Some (Dead i j), Returns, w)
            else run_find f v (tl cmps) i (S j) w
          | (e, w) => (None, e, w)
          end
        end
      end
    end
  end

(** crates/utils/src/intern.rs:149-156 and 163-165: [incr_inner] on the slot chosen, then the
    conversion, then [set_val], whose assignment runs the destructor of the value that was there and
    writes the new one also if that destructor panics. *)
with run_fill (fuel : nat) (v : T) (conv drp : code T) (i j : nat) (w : world T) : ends * world T :=
  match fuel with
  | O => (Spent, w)
  | S f =>
    match bump dbg (ws w) i j with
    | (Returns, st) =>
      match run_code f conv (with_store w st) with
      | (Returns, w) =>
        match slot_at (ws w) i j with
        | Ok s =>
          let '(e, w) := match cont s with Some _ => run_code f drp w | None => (Returns, w) end in
          match e with
          | Spent => (Spent, w)
          | _ => (e, with_store w (write (ws w) i j v))
          end
        | _ => (Unwinds, w)
        end
      | other => other
      end
    | (e, st) => (e, with_store w st)
    end
  end

(** One call: crates/utils/src/intern.rs:134-193. *)
with run_call (fuel : nat) (c : call T) (w : world T) : ends * world T :=
  match fuel with
  | O => (Spent, w)
  | S f =>
    match c with
    | CAdd v cmps conv drp =>
      match run_find f v cmps 0 0 w with
      | (Some (Exists i j), _, w) =>
        match bump dbg (ws w) i j with
        | (Returns, st) => (Returns, log (with_store w st) (EAdd v (idx_to_offset i j)))
        | (e, st) => (e, broken (with_store w st))
        end
      | (Some (Dead i j), _, w) =>
        match run_fill f v conv drp i j w with
        | (Returns, w) => (Returns, log w (EAdd v (idx_to_offset i j)))
        | (Unwinds, w) => (Unwinds, broken w)
        | other => other
        end
      | (Some Nothing, _, w) =>
        let st := ws w ++ [new_chunk] in
        let len := length st in
        match run_fill f v conv drp (len - 1) 0 (with_store w st) with
        | (Returns, w) => (Returns, log w (EAdd v (Z.of_nat (len - 1) * 32)))
        | (Unwinds, w) => (Unwinds, broken w)
        | other => other
        end
      | (None, Unwinds, w) => (Unwinds, broken w)
      | (None, e, w) => (e, w)
      end
    | CIncr k =>
      let '(i, j) := offset_to_idx k in
      match bump dbg (ws w) i j with
      | (Returns, st) => (Returns, log (with_store w st) (EIncr k))
      | (e, st) => (e, with_store w st)
      end
    | CDecr k =>
      match intern_decr k (ws w) with
      | Ok st => (Returns, log (with_store w st) (EDecr k))
      | _ => (Unwinds, w)
      end
    | CGet k =>
      let s := look (ws w) k in
      (match s with Refused => Unwinds | _ => Returns end,
       World (ws w) (wt w) (wr w ++ [(wt w, k, s)]) (wb w))
    | CCatch cs =>
      match run_calls f cs w with
      | (Unwinds, w) => (Returns, w)
      | other => other
      end
    end
  end.

(** A whole program on a new interner.  No code of its own: the caller. *)
Definition run_world (fuel : nat) (cs : list (call T)) : ends * world T :=
  run_calls fuel cs (World interner_new [] [] 0).

End Run.
