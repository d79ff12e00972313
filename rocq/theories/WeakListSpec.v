(** Specification vocabulary for the shared list under weak memory. *)
From Coq Require Import List PeanoNat.
From Verif Require Import ConcListModel WeakListModel.
Import ListNotations.

Section Spec.
Context {A : Type}.

(** The values of the pushes that have returned, in that order. *)
Definition wpushed (h : list (wevent A)) : list A :=
  flat_map (fun e => match e with WRet _ (Push v) _ => [v] | _ => [] end) h.

(** How many elements of the list thread [t] must know of after [h]: those up to its own pushes,
    up to those it has been shown by a call, and those known to a thread it synchronised with. *)
Definition learn (aw : nat -> nat) (len : nat) (e : wevent A) : nat -> nat :=
  let raise t n := fun u => if u =? t then Nat.max (aw t) n else aw u in
  match e with
  | WInv _ _ => aw
  | WRet t (Push _) _ => raise t (len + 1)
  | WRet t (Get i) (ROpt (Some _)) => raise t (i + 1)
  | WRet t IterAll (RList l) => raise t (length l)
  | WRet t IsEmpty (RBool false) => raise t 1
  | WRet _ _ _ => aw
  | WSynced t u => raise t (aw u)
  end.
Fixpoint aware_from (aw : nat -> nat) (len : nat) (h : list (wevent A)) : nat -> nat :=
  match h with
  | [] => aw
  | e :: h' => aware_from (learn aw len e) (len + length (wpushed [e])) h'
  end.
Definition aware (h : list (wevent A)) (t : nat) : nat := aware_from (fun _ => 0) 0 h t.

(** The answer of a call that sees exactly the list [l]. *)
Definition seen_answer (l : list A) (c : call A) (r : result A) : Prop :=
  match c, r with
  | Push v, RNat n => n = length l + 1
  | Get i, ROpt o => o = nth_error l i
  | IterAll, RList l' => l' = l
  | Len, RNat n => n = length l
  | IsEmpty, RBool b => (b = true <-> l = [])
  | _, _ => False
  end.

(** [len] is called only by threads that know of an element. *)
Definition len_when_aware (h : list (wevent A)) : Prop :=
  forall h1 t h2, h = h1 ++ WInv t Len :: h2 -> 0 < aware h1 t.

(** The values found by following the pointers as they are in memory. *)
Fixpoint wwalk (hp : list (wnode A)) (fuel : nat) (p : option nat) : option (list A) :=
  match p, fuel with
  | None, _ => Some []
  | Some _, O => None
  | Some a, S f =>
    match nth_error hp a with
    | Some x => option_map (cons (wval x)) (wwalk hp f (option_map fst (wnext x)))
    | None => None
    end
  end.
Definition wcontents (m : wmem A) : option (list A) :=
  wwalk (wheap m) (length (wheap m)) (option_map fst (whead m)).
End Spec.
