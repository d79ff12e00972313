(** C173: element code that panics in, or calls back into, the interner. *)
From Coq Require Import ZArith List Bool Lia.
From Verif Require Import Base Arith InternModel InternProofs InternSpec InternHist InternCallModel InternCallSpec InternCallProofs.
Import ListNotations.
Local Open Scope Z_scope.

(** The full claim, that whatever the code of the elements does a [get] through an id with
    references gives the value [add] was called with and no [get] is undefined behaviour, is false
    in the four ways of the [_refuted] theorems below.  It holds of the two styles of InternCallSpec.v. *)

(** Programs of which the element code never adds, or which never release, may panic and catch
    panics anywhere and call [get], [incr] (and [decr], [add]) from inside: every [get] through an id
    with references sees the one value it was handed out for, at every moment of the run. *)
Theorem C173_values_partial :
  forall (T : Type) (eqb : T -> T -> bool), (forall a b, eqb a b = true <-> a = b) ->
  forall (dbg : bool) (m : style) (fuel : nat) (cs : list (call T)) e w,
  forallb (follows m false) cs = true -> all_takes cs < 2 ^ 64 - 1 ->
  run_world eqb dbg fuel cs = (e, w) -> owned (wt w) ->
  forall tr k x, In (tr, k, x) (wr w) -> 0 < count k tr ->
  exists v, x = Seen v /\ In v (held k tr) /\ forall u, In u (held k tr) -> u = v.
Proof.
  intros T eqb Heq dbg m fuel cs e w Hf Ht E Ho tr k x Hin Hc. unfold run_world in E.
  destruct (all_keep eqb Heq dbg m fuel) as (I1 & _).
  specialize (I1 false cs (World interner_new [] [] 0) 0 0).
  rewrite E in I1. destruct I1 as [R _]; auto.
  - constructor; cbn [ws wt wr wb]; try (cbn; lia); auto.
    + constructor.
    + intros k' s Hk Q. unfold slot_of in Q. destruct (k' <? 0); [discriminate|]. cbn in Q.
      destruct (Z.to_nat k'); discriminate.
  - rewrite Forall_forall in R. exact (R _ Hin Hc).
Qed.
Print Assumptions C173_values_partial.

(** The references that the slots count, all together. *)
Definition in_use {T} (st : store T) : Z :=
  fold_right (fun k n => match refcount st (Z.of_nat k) with Ok c => c + n | _ => n end) 0
    (seq 0 (32 * length st)).

Lemma sum_seq {T} (l : list (slot T)) : forall a (f : nat -> option (slot T)),
  (forall i, (i < length l)%nat -> f (a + i)%nat = nth_error l i) ->
  fold_right (fun k n => match f k with Some s => refs s + n | None => n end) 0 (seq a (length l)) = sum_refs l.
Proof.
  induction l as [|s l IH]; intros a f H; [reflexivity|]. cbn [length seq fold_right].
  pose proof (H 0%nat ltac:(cbn; lia)) as H0. rewrite Nat.add_0_r in H0. rewrite H0. cbn [nth_error].
  rewrite (IH (S a) f); [reflexivity|]. intros i Hi. specialize (H (S i) ltac:(cbn; lia)). cbn [nth_error] in H. rewrite <- H. f_equal. lia.
Qed.

Lemma refcount_slot {T} (st : store T) k : shape st -> 0 <= k ->
  refcount st k = match slot_of st k with Some s => Ok (refs s) | None => Panic end.
Proof.
  intros Hs Hk. unfold refcount. pose proof (slot_at_offset st k Hs Hk) as H.
  destruct (offset_to_idx k) as [i j]. rewrite H. destruct (slot_of st k); reflexivity.
Qed.

Lemma in_use_total {T} (st : store T) : shape st -> in_use st = total st.
Proof.
  intros Hs. unfold total. rewrite <- (sum_seq (flat st) 0 (fun k => slot_of st (Z.of_nat k))).
  - unfold in_use. rewrite length_flat by auto. induction (seq 0 (32 * length st)) as [|k l IH]; [reflexivity|].
    cbn [fold_right]. rewrite IH, refcount_slot by (auto; lia). destruct (slot_of st (Z.of_nat k)); reflexivity.
  - intros i _. apply slot_of_nat.
Qed.

(** In the same programs, when they have ended (by returning or by a panic): an id counts at least
    the references that were handed out for it, and all the ids together count at most one reference
    per call of [add] that panicked beyond those handed out.  So what panics lose is bounded. *)
Theorem C173_counts_partial :
  forall (T : Type) (eqb : T -> T -> bool), (forall a b, eqb a b = true <-> a = b) ->
  forall (dbg : bool) (m : style) (fuel : nat) (cs : list (call T)) e w,
  forallb (follows m false) cs = true -> all_takes cs < 2 ^ 64 - 1 ->
  run_world eqb dbg fuel cs = (e, w) -> e <> Spent -> owned (wt w) ->
  (forall k, 0 < count k (wt w) -> exists c, refcount (ws w) k = Ok c /\ count k (wt w) <= c) /\
  in_use (ws w) <= outstanding (wt w) + wb w.
Proof.
  intros T eqb Heq dbg m fuel cs e w Hf Ht E He Ho. unfold run_world in E.
  destruct (all_keep eqb Heq dbg m fuel) as (I1 & _).
  specialize (I1 false cs (World interner_new [] [] 0) 0 0).
  rewrite E in I1. destruct I1 as [_ R]; auto.
  { constructor; cbn [ws wt wr wb]; try (cbn; lia); auto.
    - constructor.
    - intros k' s Hk Q. unfold slot_of in Q. destruct (k' <? 0); [discriminate|]. cbn in Q.
      destruct (Z.to_nat k'); discriminate. }
  destruct (R He) as [[A0 A1 A2 A3 A4 A5] _]. split.
  - intros k Hc.
    assert (0 <= k < 32 * Z.of_nat (length (ws w))) as Hk.
    { destruct (Z_lt_ge_dec k 0) as [L|L]; [pose proof (A3 k ltac:(lia)); lia|].
      destruct (Z_lt_ge_dec k (32 * Z.of_nat (length (ws w)))) as [L'|L']; [lia|]. pose proof (A3 k ltac:(lia)). lia. }
    destruct (in_range_slot (ws w) k A0 Hk) as [s Es]. exists (refs s).
    rewrite refcount_slot, Es by (auto; lia). split; auto. apply (A2 k s); auto. lia.
  - rewrite in_use_total by auto. lia.
Qed.
Print Assumptions C173_counts_partial.

(** The conditions on the interner below hold of every interner in practice: complete chunks, and
    no count at the maximum. *)
Definition in_order {T} (st : store T) : Prop :=
  Forall (fun c => length c = 32%nat) st /\ forall k c, 0 <= k -> refcount st k = Ok c -> 0 <= c < 2 ^ 64 - 1.

Lemma in_order_sound {T} (st : store T) : in_order st -> sound st.
Proof.
  intros [H1 H2]. split; [exact H1|]. intros k s Hk E. apply (H2 k); auto.
  rewrite refcount_slot, E by auto. reflexivity.
Qed.

(** A comparison that panics (the other element code being harmless) leaves the interner as it was. *)
Theorem C173_comparison_partial :
  forall (T : Type) (eqb : T -> T -> bool), (forall a b, eqb a b = true <-> a = b) ->
  forall (dbg : bool) (fuel : nat) (v : T) cmps w w',
  in_order (ws w) -> (forall cd, In cd cmps -> cd = Code [] true \/ cd = Code [] false) ->
  run_call eqb dbg fuel (CAdd v cmps (Code [] false) (Code [] false)) w = (Unwinds, w') ->
  ws w' = ws w /\ wt w' = wt w.
Proof.
  intros T eqb Heq dbg fuel v cmps w w' Hw Hs E.
  destruct (comparison_panic eqb Heq dbg fuel v cmps w Unwinds w' (in_order_sound _ Hw)) as (H1 & H2 & _); auto.
  apply Forall_forall. intros cd Hin. destruct (Hs cd Hin) as [->| ->]; eexists; reflexivity.
Qed.
Print Assumptions C173_comparison_partial.

(** A conversion that panics leaves exactly one id changed: one without references now counts one
    that nobody holds, and [get] on it gives the value it held before it ran out of references, or is
    undefined behaviour if it never held one. *)
Theorem C173_conversion_partial :
  forall (T : Type) (eqb : T -> T -> bool), (forall a b, eqb a b = true <-> a = b) ->
  forall (dbg : bool) (fuel : nat) (v : T) drp w w',
  in_order (ws w) ->
  run_call eqb dbg fuel (CAdd v [] (Code [] true) drp) w = (Unwinds, w') ->
  wt w' = wt w /\
  exists k, 0 <= k /\
    (refcount (ws w) k = Ok 0 \/ refcount (ws w) k = Panic) /\ refcount (ws w') k = Ok 1 /\
    look (ws w') k = match behind (ws w) k with Ok x => Seen x | _ => Undefined end /\
    forall k' c, 0 <= k' -> k' <> k -> refcount (ws w) k' = Ok c ->
      refcount (ws w') k' = Ok c /\ look (ws w') k' = look (ws w) k'.
Proof.
  intros T eqb Heq dbg fuel v drp w w' Hw E. pose proof (in_order_sound _ Hw) as [Hs Hr].
  destruct (conversion_panic eqb Heq dbg fuel v [] drp w Unwinds w' (conj Hs Hr)) as (H1 & _ & Hs' & k & Hk & H3 & H4 & H5); auto.
  split; auto. exists k. split; auto. rewrite !refcount_slot by auto. rewrite H4.
  assert (forall (st : store T) k', shape st -> 0 <= k' -> look st k' = match slot_of st k' with
    | Some s => if refs s =? 0 then Refused else match cont s with Some x => Seen x | None => Undefined end
    | None => Refused end) as HL.
  { intros st k' Hst Hk'. unfold look. pose proof (slot_at_offset st k' Hst Hk') as Q.
    destruct (offset_to_idx k') as [i j]. rewrite Q. destruct (slot_of st k'); reflexivity. }
  assert (behind (ws w) k = match slot_of (ws w) k with Some s => unwrap (cont s) | None => Panic end) as HB.
  { unfold behind. pose proof (slot_at_offset (ws w) k Hs Hk) as Q.
    destruct (offset_to_idx k) as [i j]. rewrite Q. destruct (slot_of (ws w) k); reflexivity. }
  rewrite HL, H4, HB by auto. cbn [refs cont]. split.
  { destruct (slot_of (ws w) k); [left; congruence|right; reflexivity]. }
  split; auto. split.
  { change (1 =? 0) with false. destruct (slot_of (ws w) k) as [s|]; [|reflexivity]. destruct (cont s); reflexivity. }
  intros k' c Hk' Hne Hc. rewrite refcount_slot in Hc by auto. rewrite refcount_slot, !HL by auto.
  destruct (slot_of (ws w) k') as [s'|] eqn:E'; [|discriminate]. rewrite (H5 _ _ Hk' Hne E'). auto.
Qed.
Print Assumptions C173_conversion_partial.

(** A destructor that panics while [add] replaces a value: the new value is there, counted once for nobody,
    and everything else is as it was. *)
Theorem C173_dropped_partial :
  forall (T : Type) (eqb : T -> T -> bool), (forall a b, eqb a b = true <-> a = b) ->
  forall (dbg : bool) (fuel : nat) (v : T) w w',
  in_order (ws w) ->
  run_call eqb dbg fuel (CAdd v [] (Code [] false) (Code [] true)) w = (Unwinds, w') ->
  wt w' = wt w /\
  exists k old, 0 <= k /\ refcount (ws w) k = Ok 0 /\ behind (ws w) k = Ok old /\
    refcount (ws w') k = Ok 1 /\ look (ws w') k = Seen v /\
    forall k' c, 0 <= k' -> k' <> k -> refcount (ws w) k' = Ok c ->
      refcount (ws w') k' = Ok c /\ look (ws w') k' = look (ws w) k'.
Proof.
  intros T eqb Heq dbg fuel v w w' Hw E. pose proof (in_order_sound _ Hw) as [Hs Hr].
  destruct (destructor_panic eqb Heq dbg fuel v w Unwinds w' (conj Hs Hr)) as (H1 & Hs' & k & s & Hk & Es & Er & Ec & H4 & H5); auto.
  destruct (cont s) as [old|] eqn:Eo; [|congruence].
  split; auto. exists k, old. split; auto. rewrite !refcount_slot by auto. rewrite H4, Es.
  assert (forall (st : store T) k', shape st -> 0 <= k' -> look st k' = match slot_of st k' with
    | Some s => if refs s =? 0 then Refused else match cont s with Some x => Seen x | None => Undefined end
    | None => Refused end) as HL.
  { intros st k' Hst Hk'. unfold look. pose proof (slot_at_offset st k' Hst Hk') as Q.
    destruct (offset_to_idx k') as [i j]. rewrite Q. destruct (slot_of st k'); reflexivity. }
  assert (behind (ws w) k = Ok old) as HB.
  { unfold behind. pose proof (slot_at_offset (ws w) k Hs Hk) as Q.
    destruct (offset_to_idx k) as [i j]. rewrite Q, Es. cbn [unwrap bind]. rewrite Eo. reflexivity. }
  rewrite HL, H4, HB by auto. cbn [refs cont]. split; [congruence|]. split; auto. split; auto. split; auto.
  intros k' c Hk' Hne Hc. rewrite refcount_slot in Hc by auto. rewrite refcount_slot, !HL by auto.
  destruct (slot_of (ws w) k') as [s'|] eqn:E'; [|discriminate]. rewrite (H5 _ _ Hk' Hne E'). auto.
Qed.
Print Assumptions C173_dropped_partial.

(** When these panics come out of [add]: the value is not at the id already, and the conversion panics or
    there is a value to destroy and its destructor panics. *)
Theorem C173_panics_partial :
  forall (T : Type) (eqb : T -> T -> bool), (forall a b, eqb a b = true <-> a = b) ->
  forall (dbg : bool) (fuel : nat) (v : T) (conv_panics drop_panics : bool) w e w' k st',
  in_order (ws w) ->
  run_call eqb dbg fuel (CAdd v [] (Code [] conv_panics) (Code [] drop_panics)) w = (e, w') -> e <> Spent ->
  intern_add eqb dbg v (ws w) = Ok (k, st') ->
  (e = Unwinds <-> behind (ws w) k <> Ok v /\
     (conv_panics = true \/ (drop_panics = true /\ exists old, behind (ws w) k = Ok old))).
Proof.
  intros T eqb Heq dbg fuel v pc pd w e w' k st' Hw. apply (code_panics eqb Heq dbg fuel v pc pd w e w' k st' (in_order_sound _ Hw)).
Qed.
Print Assumptions C173_panics_partial.

(** The panic of the first comparison, made as soon as id 0 has held a value, comes out whatever would follow. *)
Theorem C173_compared_partial :
  forall (T : Type) (eqb : T -> T -> bool) (dbg : bool) (fuel : nat) (v x : T) cmps conv drp w e w',
  behind (ws w) 0 = Ok x ->
  run_call eqb dbg fuel (CAdd v (Code [] true :: cmps) conv drp) w = (e, w') -> e <> Spent ->
  e = Unwinds /\ ws w' = ws w /\ wt w' = wt w.
Proof.
  intros T eqb dbg fuel v x cmps conv drp w e w' Hb E He. destruct fuel as [|[|f]]; [cbn in E; congruence| |].
  { cbn in E. congruence. }
  rewrite run_call_S, run_find_S in E. unfold behind in Hb.
  change (offset_to_idx 0) with (0%nat, 0%nat) in Hb. cbv beta iota in Hb. unfold slot_at in Hb. 
  destruct (nth_error (ws w) 0) as [c|]; cbn [unwrap bind] in Hb; [|discriminate]. cbn [unwrap bind] in Hb.
  destruct (nth_error c 0) as [s|]; [|discriminate]. cbn [unwrap bind] in Hb. destruct (cont s); [|discriminate].
  cbn [hd] in E. destruct (quiet_code eqb dbg f true w) as [Q|Q]; rewrite Q in E; injection E as <- <-; [congruence|]. auto.
Qed.
Print Assumptions C173_compared_partial.

Example C173_dropped_demo : exists w w', run_world Z.eqb true 100 [CAdd 1 [] (Code [] false) (Code [] false); CDecr 0] = (Returns, w) /\
  run_call Z.eqb true 100 (CAdd 2 [] (Code [] false) (Code [] true)) w = (Unwinds, w') /\ look (ws w') 0 = Seen 2 /\ refcount (ws w') 0 = Ok 1.
Proof. eexists. eexists. split; [vm_compute; reflexivity|]. split; [vm_compute; reflexivity|]. split; vm_compute; reflexivity. Qed.

(** With element code that does nothing, a call of [add] is the [add] of C59 and C60. *)
Theorem C173_plain_partial :
  forall (T : Type) (eqb : T -> T -> bool) (dbg : bool) (fuel : nat) (v : T) w e w',
  run_call eqb dbg fuel (CAdd v [] (Code [] false) (Code [] false)) w = (e, w') -> e <> Spent ->
  match intern_add eqb dbg v (ws w) with
  | Ok (k, st') => e = Returns /\ ws w' = st' /\ wt w' = wt w ++ [EAdd v k]
  | _ => e = Unwinds /\ wt w' = wt w
  end.
Proof.
  intros T eqb dbg fuel v w e w' E He.
  pose proof (plain_add eqb dbg fuel v [] w (Forall_nil _)) as P. rewrite E in P.
  destruct P as [P|P]; [destruct (He P)|]. destruct (intern_add eqb dbg v (ws w)) as [[k st']| |]; auto.
  destruct P as [-> ->]. auto.
Qed.
Print Assumptions C173_plain_partial.

Definition nothing : code Z := Code [] false.
Definition plain (v : Z) : call Z := CAdd v [] nothing nothing.

(** After a caught panic in the conversion, safe code gets undefined behaviour from [get]. *)
Theorem C173_panic_refuted : exists (cs : list (call Z)) w,
  run_world Z.eqb false 100 cs = (Returns, w) /\ owned (wt w) /\
  forallb (follows Calm false) cs = true /\ In ([], 0, Undefined) (wr w).
Proof.
  exists [CCatch [CAdd 5 [] (Code [] true) nothing]; CGet 0]. eexists. split; [vm_compute; reflexivity|].
  split; [|split; [reflexivity|left; reflexivity]].
  intros tr1 e tr2 H. cbn [wt] in H. destruct tr1; discriminate.
Qed.
Print Assumptions C173_panic_refuted.

(** [cs] uses its references properly, and at its end there are references to id 0 that were handed
    out for 1, but [get] gives 2. *)
Definition mixes_up (cs : list (call Z)) : Prop := exists w tr,
  run_world Z.eqb false 100 cs = (Returns, w) /\ owned (wt w) /\
  In 1 (held 0 tr) /\ 0 < count 0 tr /\ In (tr, 0, Seen 2) (wr w).

Fixpoint ownedb (tr1 tr2 : list (event Z)) : bool :=
  match tr2 with
  | [] => true
  | e :: tr2' => match e with EIncr k | EDecr k => 0 <? count k tr1 | EAdd _ _ => true end && ownedb (tr1 ++ [e]) tr2'
  end.
Lemma owned_check (tr : list (event Z)) : ownedb [] tr = true -> owned tr.
Proof.
  assert (forall tr2 tr1, ownedb tr1 tr2 = true -> forall a e b, tr2 = a ++ e :: b ->
    match e with EIncr k | EDecr k => 0 < count k (tr1 ++ a) | EAdd _ _ => True end) as G.
  { induction tr2 as [|x tr2 IH]; intros tr1 H a e b E; [destruct a; discriminate|].
    cbn [ownedb] in H. apply andb_prop in H. destruct H as [H1 H2]. destruct a as [|y a].
    - cbn [app] in E. injection E as -> ->. rewrite app_nil_r. destruct e; auto; apply Z.ltb_lt; auto.
    - cbn [app] in E. injection E as -> ->. specialize (IH (tr1 ++ [y]) H2 a e b eq_refl).
      rewrite <- app_assoc in IH. exact IH. }
  intros H a e b E. exact (G tr [] H a e b E).
Qed.

(** A conversion that calls back. *)
Theorem C173_conversion_refuted :
  mixes_up [plain 1; CDecr 0; CAdd 2 [] (Code [plain 1] false) nothing; CGet 0].
Proof.
  eexists. eexists. split; [vm_compute; reflexivity|]. split; [apply owned_check; vm_compute; reflexivity|].
  cbn [wr]. split; [|split; [|left; reflexivity]]; [right; left; reflexivity|vm_compute; reflexivity].
Qed.
Print Assumptions C173_conversion_refuted.

(** A comparison that calls back. *)
Theorem C173_comparison_refuted :
  mixes_up [plain 1; CDecr 0; CAdd 2 [Code [plain 1] false] nothing nothing; CGet 0].
Proof.
  eexists. eexists. split; [vm_compute; reflexivity|]. split; [apply owned_check; vm_compute; reflexivity|].
  cbn [wr]. split; [|split; [|left; reflexivity]]; [right; left; reflexivity|vm_compute; reflexivity].
Qed.
Print Assumptions C173_comparison_refuted.

(** A destructor that calls back. *)
Theorem C173_destructor_refuted :
  mixes_up [plain 1; CDecr 0; CAdd 2 [] nothing (Code [plain 1] false); CGet 0].
Proof.
  eexists. eexists. split; [vm_compute; reflexivity|]. split; [apply owned_check; vm_compute; reflexivity|].
  cbn [wr]. split; [|split; [|left; reflexivity]]; [right; left; reflexivity|vm_compute; reflexivity].
Qed.
Print Assumptions C173_destructor_refuted.

(** A program in style [Calm]: two caught panics (in a comparison and in a conversion that also
    releases and reads), then the values are still there; one reference is lost. *)
Definition calm_program : list (call Z) :=
  [plain 1; plain 2; CIncr 1; CCatch [CAdd 3 [Code [CGet 1] true] nothing nothing]; CDecr 1;
   CCatch [CAdd 4 [] (Code [CGet 0; CDecr 1; CGet 1] false) nothing; CGet 0];
   CAdd 5 [Code [CIncr 0] false; Code [CDecr 0] false] nothing nothing; CGet 0; CGet 1].
Example C173_demo :
  let '(e, w) := run_world Z.eqb true 100 calm_program in
  e = Returns /\ forallb (follows Calm false) calm_program = true /\ owned (wt w) /\
  map (fun r => (snd (fst r), snd r)) (wr w) = [(1, Seen 2); (0, Seen 1); (1, Refused); (0, Seen 1); (1, Seen 5)] /\
  in_use (ws w) = outstanding (wt w) + 1 /\ wb w = 2.
Proof.
  destruct (run_world Z.eqb true 100 calm_program) as [e w] eqn:E. vm_compute in E. injection E as <- <-.
  split; [reflexivity|]. split; [reflexivity|]. split; [apply owned_check; vm_compute; reflexivity|].
  vm_compute. auto.
Qed.

(** A program in style [Keep]: adding from inside every kind of element code. *)
Definition keep_program : list (call Z) :=
  [plain 1; CAdd 2 [Code [plain 3; CGet 1] false] (Code [plain 4; CCatch [CAdd 6 [] (Code [plain 7] true) nothing]] false) nothing;
   CGet 0; CGet 1; CGet 2; CGet 3; CGet 5].
Example C173_keep_demo :
  let '(e, w) := run_world Z.eqb true 100 keep_program in
  e = Returns /\ forallb (follows Keep false) keep_program = true /\ owned (wt w) /\
  map (fun r => (snd (fst r), snd r)) (wr w) =
    [(1, Seen 3); (0, Seen 1); (1, Seen 3); (2, Seen 2); (3, Seen 4); (5, Seen 7)].
Proof.
  destruct (run_world Z.eqb true 100 keep_program) as [e w] eqn:E. vm_compute in E. injection E as <- <-.
  split; [reflexivity|]. split; [reflexivity|]. split; [apply owned_check; vm_compute; reflexivity|].
  vm_compute. auto.
Qed.
