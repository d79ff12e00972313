(** Property C150: collecting into nested [Option]s and [Result]s (crates/static-iter/src/lib.rs:10-117),
    e.g. [collect::<Option<Result<Option<[T; N]>, E>>>()]. *)
From Coq Require Import List Bool Arith Lia.
From Verif Require Import Base StaticIterModel StaticIterSpec StaticIterProofs PropStatic.
Import ListNotations.

(** ** Specification *)

(** One layer around the array, from the outside in. *)
Inductive layer := LOption | LResult (E : Type).

(** The type of the items, and of what they are collected into. *)
Fixpoint around (ls : list layer) (T : Type) : Type :=
  match ls with
  | [] => T
  | LOption :: ls => option (around ls T)
  | LResult E :: ls => (around ls T + E)%type
  end.

(** A value with nothing missing in any layer. *)
Fixpoint whole (ls : list layer) {T : Type} (v : T) : around ls T :=
  match ls with
  | [] => v
  | LOption :: ls => Some (whole ls v)
  | LResult E :: ls => inl (whole ls v)
  end.

(** A [None] or an [Err(e)] in one of the layers; it can stand for an item as well as for a collection. *)
Fixpoint hole (ls : list layer) : Type :=
  match ls with
  | [] => Empty_set
  | LOption :: ls => option (hole ls)
  | LResult E :: ls => (hole ls + E)%type
  end.
Fixpoint at_hole (ls : list layer) {T : Type} : hole ls -> around ls T :=
  match ls with
  | [] => fun h => match h with end
  | LOption :: ls => fun h => match h with Some h => Some (at_hole ls h) | None => None end
  | LResult E :: ls => fun h => match h with inl h => inl (at_hole ls h) | inr e => inr e end
  end.

(** The implementation of [FromStaticIter] the compiler picks for the nested type. *)
Fixpoint nested (ls : list layer) (T : Type) : from_static (around ls T) (around ls (list T)) :=
  match ls with
  | [] => array_static T
  | LOption :: ls => option_static (nested ls T)
  | LResult E :: ls => result_static (nested ls T)
  end.

(** ** Proofs *)

Fixpoint holds (ls : list layer) (T : Type) (n : nat) (d : list T) : Uninit (nested ls T) -> Prop :=
  match ls with
  | [] => fun u => u = filled n d
  | LOption :: ls => holds ls T n d
  | LResult E :: ls => holds ls T n d
  end.

Lemma holds_uninit ls T n : holds ls T n [] (uninit (nested ls T) n).
Proof.
  induction ls as [|[|E] ls IH]; cbn [holds nested uninit option_static result_static array_static]; auto.
  unfold filled. cbn. rewrite Nat.sub_0_r. auto.
Qed.

Lemma holds_write ls T n d v : forall u, holds ls T n d u -> length d < n ->
  exists u', write (nested ls T) u (length d) (whole ls v) = Ret (inl u') /\ holds ls T n (d ++ [v]) u'.
Proof.
  induction ls as [|[|E] ls IH]; intros u H L.
  - cbn [holds] in H. subst u. eexists. split; [apply filled_write; auto|reflexivity].
  - destruct (IH u H L) as (u' & W & H'). exists u'. split; [|exact H']. cbn [write nested option_static whole]. rewrite W. reflexivity.
  - destruct (IH u H L) as (u' & W & H'). exists u'. split; [|exact H']. cbn [write nested result_static whole]. rewrite W. reflexivity.
Qed.

Lemma holds_finish ls T n d : length d = n -> forall u, holds ls T n d u -> finish (nested ls T) (inl u) = Ret (whole ls d).
Proof.
  intros L. induction ls as [|[|E] ls IH]; intros u H.
  - cbn [holds] in H. subst u. cbn [finish nested array_static]. rewrite filled_full, all_init_some by auto. reflexivity.
  - cbn [finish nested option_static]. rewrite (IH u H). reflexivity.
  - cbn [finish nested result_static]. rewrite (IH u H). reflexivity.
Qed.

Lemma hole_write ls T : forall (h : hole ls) u k,
  exists b, write (nested ls T) u k (at_hole ls h) = Ret (inr b) /\ finish (nested ls T) (inr b) = Ret (at_hole ls h).
Proof.
  induction ls as [|[|E] ls IH]; intros h u k; [destruct h| |].
  - destruct h as [h|]; cbn [write finish nested option_static at_hole].
    + destruct (IH h u k) as (b & W & F). rewrite W. exists (Some b). split; [reflexivity|]. rewrite F. reflexivity.
    + exists None. split; reflexivity.
  - destruct h as [h|e]; cbn [write finish nested result_static at_hole].
    + destruct (IH h u k) as (b & W & F). rewrite W. exists (inl b). split; [reflexivity|]. rewrite F. reflexivity.
    + exists (inr e). split; reflexivity.
Qed.

Lemma nested_run ls T n : forall vs rest d (a : adapter (around ls T)) u, ready n (length d) a ->
  items n (length d) a (map (whole ls) vs ++ rest) -> length d + length vs + length rest = n -> holds ls T n d u ->
  exists a' u', ready n (length (d ++ vs)) a' /\ items n (length (d ++ vs)) a' rest /\ holds ls T n (d ++ vs) u' /\
  try_from (fun s k x => write (nested ls T) s k x) a (length d) (length vs + length rest) u =
  try_from (fun s k x => write (nested ls T) s k x) a' (length (d ++ vs)) (length rest) u'.
Proof.
  induction vs as [|v vs IH]; intros rest d a u R I L H.
  - exists a, u. rewrite app_nil_r. auto.
  - cbn [map app length plus] in *. destruct (both_step _ _ _ _ _ _ R I) as (a1 & E1 & R1 & I1).
    destruct (holds_write ls T n d v u H ltac:(lia)) as (u1 & W & H1).
    assert (S (length d) = length (d ++ [v])) as Ls by (rewrite app_length; cbn; lia). rewrite Ls in R1, I1.
    destruct (IH rest (d ++ [v]) a1 u1 R1 I1 ltac:(lia) H1) as (a' & u' & R' & I' & H' & E').
    rewrite <- app_assoc in *. cbn [app] in *. exists a', u'. split; auto. split; auto. split; auto.
    cbn [try_from]. rewrite E1. cbn [obind]. rewrite W. cbn [obind]. rewrite Ls. exact E'.
Qed.

(** Items without a hole: every one is read, and all values are returned in order. *)
Theorem C150_all_whole ls T n (a : adapter (around ls T)) vs : fresh n a -> items n 0 a (map (whole ls) vs) ->
  exists a', collect (nested ls T) n a = Ret (a', whole ls vs) /\ visited a' n.
Proof.
  intros F I. pose proof (items_length _ _ _ _ _ I) as L. rewrite Nat.sub_0_r, map_length in L.
  destruct (nested_run ls T n vs [] [] a (uninit (nested ls T) n)) as (a' & u' & R & _ & H & E); cbn [length]; rewrite ?app_nil_r; try lia.
  { apply fresh_ready; auto. } { auto. } { apply holds_uninit. }
  cbn [length app] in *. rewrite Nat.add_0_r, L in E. unfold collect, from_static_iter. rewrite E. cbn [try_from obind].
  rewrite (holds_finish ls T n vs L u' H). cbn [obind]. exists a'. split; auto. rewrite L in R. apply (visited_ready n); auto.
Qed.

(** Otherwise the first item with a hole, in whatever layer, decides; nothing after it is read. *)
Theorem C150_first_hole ls T n (a : adapter (around ls T)) vs h rest : fresh n a ->
  items n 0 a (map (whole ls) vs ++ at_hole ls h :: rest) ->
  exists a', collect (nested ls T) n a = Ret (a', at_hole ls h) /\ visited a' (S (length vs)).
Proof.
  intros F I. pose proof (items_length _ _ _ _ _ I) as L. rewrite Nat.sub_0_r, app_length, map_length in L.
  destruct (nested_run ls T n vs (at_hole ls h :: rest) [] a (uninit (nested ls T) n)) as (a' & u' & R & I' & H & E); auto.
  { apply fresh_ready; auto. } { apply holds_uninit. }
  cbn [app plus] in *. change (@length T []) with 0 in E. rewrite L in E. unfold collect, from_static_iter. rewrite E. cbn [length try_from].
  destruct (both_step _ _ _ _ _ _ R I') as (a2 & E2 & R2 & _). rewrite E2. cbn [obind].
  destruct (hole_write ls T h u' (length vs)) as (b & W & Fi). rewrite W. cbn [obind]. rewrite Fi. cbn [obind].
  exists a2. split; auto. apply (visited_ready n); auto.
Qed.

(** Every item is of one of these two kinds and never of both, so one of the two theorems applies to every run. *)
Theorem C150_kinds ls T (x : around ls T) :
  ((exists v, x = whole ls v) \/ (exists h, x = at_hole ls h)) /\ forall (v : T) h, whole ls v <> at_hole ls h.
Proof.
  split.
  - induction ls as [|[|E] ls IH]; cbn [around whole at_hole hole] in *.
    + left. exists x. reflexivity.
    + destruct x as [x|]; [|right; exists None; reflexivity].
      destruct (IH x) as [[v ->]|[h ->]]; [left; exists v|right; exists (Some h)]; reflexivity.
    + destruct x as [x|e]; [|right; exists (inr e); reflexivity].
      destruct (IH x) as [[v ->]|[h ->]]; [left; exists v|right; exists (inl h)]; reflexivity.
  - intros v. induction ls as [|[|E] ls IH]; cbn [around whole at_hole hole] in *; [intros []| |];
      [assert (around ls T) as y by exact (whole ls v)|assert (around ls T) as y by exact (whole ls v)].
    + intros [h|] Q; [|discriminate]. injection Q as Q. apply (IH y h). exact Q.
    + intros [h|e] Q; [|discriminate]. injection Q as Q. apply (IH y h). exact Q.
Qed.

(** The test of the crate (lib.rs:275-297) at [Option<Option<[u32; 4]>>] and a three-layered one. *)
Example C150_demo :
  (exists a, collect (nested [LOption; LOption] nat) 4 (into_iter [Some (Some 1); Some (Some 2); Some None; None]) = Ret (a, Some None)) /\
  (exists a, collect (nested [LOption; LOption] nat) 4 (into_iter [Some (Some 1); None; Some None; Some (Some 3)]) = Ret (a, None)) /\
  (exists a, collect (nested [LOption; LResult bool; LOption] nat) 2
     (into_iter [Some (inl (Some 5)); Some (inr true)]) = Ret (a, Some (inr true))).
Proof. repeat split; eexists; vm_compute; reflexivity. Qed.

Print Assumptions C150_all_whole.
Print Assumptions C150_first_hole.
Print Assumptions C150_kinds.
