(** Vocabulary for programs that use an interner from inside the code of its elements. *)
From Coq Require Import ZArith List Bool.
From Verif Require Import InternSpec InternCallModel.
Import ListNotations.
Local Open Scope Z_scope.

(** Two ways of writing programs.  [Calm]: the code of the elements (comparison, conversion,
    destructor) never calls [add].  [Keep]: nothing ever calls [decr]. *)
Inductive style := Calm | Keep.
Definition is_keep (m : style) : bool := match m with Keep => true | Calm => false end.

(** A program is written in style [m]; [inner] is for the code of the elements. *)
Fixpoint follows {T} (m : style) (inner : bool) (c : call T) : bool :=
  match c with
  | CAdd _ cmps conv drp =>
    (is_keep m || negb inner) && forallb (code_follows m) cmps && code_follows m conv && code_follows m drp
  | CDecr _ => negb (is_keep m)
  | CCatch cs => forallb (follows m inner) cs
  | CIncr _ | CGet _ => true
  end
with code_follows {T} (m : style) (cd : code T) : bool :=
  match cd with Code cs _ => forallb (follows m true) cs end.

(** How many calls of [add] and [incr] a program contains. *)
Fixpoint takes {T} (c : call T) : Z :=
  match c with
  | CAdd _ cmps conv drp =>
    1 + (fold_right (fun cd n => code_takes cd + n) 0 cmps + (code_takes conv + code_takes drp))
  | CIncr _ => 1
  | CDecr _ | CGet _ => 0
  | CCatch cs => fold_right (fun c n => takes c + n) 0 cs
  end
with code_takes {T} (cd : code T) : Z :=
  match cd with Code cs _ => fold_right (fun c n => takes c + n) 0 cs end.
Definition all_takes {T} (cs : list (call T)) : Z := fold_right (fun c n => takes c + n) 0 cs.

(** [incr] and [decr] are only called on ids that have references. *)
Definition owned {T} (tr : list (event T)) : Prop :=
  forall tr1 e tr2, tr = tr1 ++ e :: tr2 ->
  match e with EIncr k | EDecr k => 0 < count k tr1 | EAdd _ _ => True end.

(** The values for which [add] has returned [k] since the references to [k] last ran out (or since
    the start); the first component counts the references. *)
Definition held_step {T} (k : Z) (p : Z * list T) (e : event T) : Z * list T :=
  match e with
  | EAdd v k' => if k' =? k then (fst p + 1, v :: snd p) else p
  | EIncr k' => if k' =? k then (fst p + 1, snd p) else p
  | EDecr k' => if k' =? k then (if fst p <=? 1 then (0, []) else (fst p - 1, snd p)) else p
  end.
Definition held {T} (k : Z) (tr : list (event T)) : list T := snd (fold_left (held_step k) tr (0, [])).

(** References handed out and not given back. *)
Definition outstanding {T} (tr : list (event T)) : Z :=
  fold_right (fun e n => match e with EAdd _ _ | EIncr _ => 1 + n | EDecr _ => n - 1 end) 0 tr.
