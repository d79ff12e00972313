(** Properties C153 and C154: formatting into writers that may fail, and formatting options. *)
From Coq Require Import ZArith List Bool Lia.
From Verif Require Import RatModel TextRandModel Base Words Spec BitSliceModel InternModel BigIntModel UModel PrimModel FixedModel FixedTextModel
  TextSpec BigIntSpec BigIntProofs PropBigInt PropU FmtModel.
Import ListNotations.
Local Open Scope Z_scope.

(** ** Specification *)

(** A writer, given [pieces] one after the other until it refuses one, goes from state [s] to [s']; [ok] if it refused none. *)
Inductive delivered {S} (sink : S -> list Z -> S * bool) : S -> list (list Z) -> S -> bool -> Prop :=
| all_delivered s : delivered sink s [] s true
| accepted s p ps s1 s' ok : sink s p = (s1, true) -> delivered sink s1 ps s' ok -> delivered sink s (p :: ps) s' ok
| refused s p ps s' : sink s p = (s', false) -> delivered sink s (p :: ps) s' false.

(** Formatting [text]: its pieces in order are delivered up to the first that is refused; the result says whether any was; the
    options stay as they were. *)
Definition formats {S} (sink : S -> list Z -> S * bool) (text : list Z) (f : formatter) (r : formatter * bool) : Prop :=
  exists pieces, concat pieces = text /\ delivered sink (out_ f) pieces (out_ (fst r)) (snd r) /\ opts (fst r) = opts f.

(** A [String], and a buffer for [k] characters that refuses what does not fit. *)
Definition string_sink (s p : list Z) : list Z * bool := (s ++ p, true).
Definition buffer_sink (k : nat) (s p : list Z) : list Z * bool :=
  if (length s + length p <=? k)%nat then (s ++ p, true) else (s, false).

(** What std's [Formatter::pad_integral] makes of an integer with the given digits: sign, prefix if [#], padding. *)
Definition padded (o : options) (negative : bool) (prefix digits : list Z) : list Z :=
  let sign := if negative then [45] else if plus o then [43] else [] in
  let front := sign ++ (if alternate o then prefix else []) in
  let missing := (match width o with Some w => w | None => 0 end - length (front ++ digits))%nat in
  if zero_pad o then front ++ repeat 48 missing ++ digits else
  let before := match align o with Some ALeft => 0 | Some ACenter => Nat.div2 missing | _ => missing end%nat in
  repeat (fill o) before ++ front ++ digits ++ repeat (fill o) (missing - before).

(** ** Proofs *)

Section Sink.
Context {S : Type} (sink : S -> list Z -> S * bool).

Lemma write_str_delivered (f : formatter) p : delivered sink (out_ f) [p] (out_ (fst (write_str sink f p))) (snd (write_str sink f p)).
Proof.
  unfold write_str. destruct (sink (out_ f) p) as [o [|]] eqn:E; cbn.
  - eapply accepted; eauto. constructor.
  - apply refused. auto.
Qed.
Lemma delivered_app s ps s1 qs s2 ok : delivered sink s ps s1 true -> delivered sink s1 qs s2 ok -> delivered sink s (ps ++ qs) s2 ok.
Proof.
  intros D. remember true as t. revert Heqt. induction D; intros Ht D2; cbn; auto; [|discriminate].
  eapply accepted; eauto.
Qed.
Lemma delivered_stop s ps s1 qs : delivered sink s ps s1 false -> delivered sink s (ps ++ qs) s1 false.
Proof.
  intros D. remember false as t. revert Heqt. induction D; intros Ht; cbn; try discriminate.
  - eapply accepted; eauto.
  - apply refused. auto.
Qed.

Lemma formats_str f p : formats sink p f (write_str sink f p).
Proof.
  exists [p]. split; [apply app_nil_r|]. split; [apply write_str_delivered|]. unfold write_str. destruct (sink (out_ f) p); auto.
Qed.
Lemma formats_nil f : formats sink [] f (f, true).
Proof. exists []. split; auto. split; auto. constructor. Qed.
Lemma formats_app t1 t2 f f1 r : formats sink t1 f (f1, true) -> formats sink t2 f1 r -> formats sink (t1 ++ t2) f r.
Proof.
  intros (ps & E1 & D1 & O1) (qs & E2 & D2 & O2). exists (ps ++ qs). split; [rewrite concat_app; congruence|].
  split; [eapply delivered_app; eauto|]. cbn in *. congruence.
Qed.
Lemma formats_stop t1 t2 f f1 : formats sink t1 f (f1, false) -> formats sink (t1 ++ t2) f (f1, false).
Proof.
  intros (ps & E1 & D1 & O1). exists (ps ++ [t2]). split; [rewrite concat_app; cbn; rewrite app_nil_r; congruence|].
  split; auto. apply delivered_stop. auto.
Qed.

Lemma formats_pieces : forall ps f, formats sink (concat ps) f (write_pieces sink f ps).
Proof.
  induction ps as [|p ps IH]; intros f; cbn [write_pieces concat]; [apply formats_nil|].
  pose proof (formats_str f p) as H. destruct (write_str sink f p) as [f1 [|]].
  - eapply formats_app; eauto.
  - apply formats_stop. auto.
Qed.

Lemma digits_text chars : forall ds out text,
  foldR (fun out d => do c <- unwrap (nth_error chars (Z.to_nat d)) ;; Ok (out ++ [c])) ds out = Ok text ->
  exists cs, text = out ++ cs /\ forall f, exists r, write_digits sink chars f ds = Ok r /\ formats sink cs f r.
Proof.
  induction ds as [|d ds IH]; intros out text; cbn [foldR write_digits].
  - intros E. injection E as <-. exists []. rewrite app_nil_r. split; auto. intros f. eexists. split; [reflexivity|]. apply formats_nil.
  - destruct (nth_error chars (Z.to_nat d)) as [c|]; cbn [unwrap bind]; [|discriminate]. intros E.
    destruct (IH _ _ E) as (cs & -> & H). exists (c :: cs). split; [rewrite <- app_assoc; reflexivity|]. intros f.
    pose proof (formats_str f [c]) as Hs. destruct (write_str sink f [c]) as [f1 [|]].
    + destruct (H f1) as (r & Er & Fr). exists r. split; auto. exact (formats_app [c] cs _ _ _ Hs Fr).
    + eexists. split; [reflexivity|]. exact (formats_stop [c] cs _ _ Hs).
Qed.

Lemma bits_text l : forall idxs out text,
  foldR (fun out idx => do b <- get_bit 64 l idx ;; Ok (out ++ [if b : bool then 49 else 48])) idxs out = Ok text ->
  exists cs, text = out ++ cs /\ forall f, exists r, write_bits sink l f idxs = Ok r /\ formats sink cs f r.
Proof.
  induction idxs as [|i idxs IH]; intros out text; cbn [foldR write_bits].
  - intros E. injection E as <-. exists []. rewrite app_nil_r. split; auto. intros f. eexists. split; [reflexivity|]. apply formats_nil.
  - destruct (get_bit 64 l i) as [b| |]; cbn [bind]; try discriminate. intros E. set (c := if b then 49 else 48) in *.
    destruct (IH _ _ E) as (cs & -> & H). exists (c :: cs). split; [rewrite <- app_assoc; reflexivity|]. intros f.
    pose proof (formats_str f [c]) as Hs. destruct (write_str sink f [c]) as [f1 [|]].
    + destruct (H f1) as (r & Er & Fr). exists r. split; auto. exact (formats_app [c] cs _ _ _ Hs Fr).
    + eexists. split; [reflexivity|]. exact (formats_stop [c] cs _ _ Hs).
Qed.

Lemma minus_text a f : formats sink (minus a) f (write_minus sink a f).
Proof. unfold minus, write_minus. destruct (is_negative a); [apply formats_str|apply formats_nil]. Qed.

Lemma base_text dbg P st hs fuel a base chars text : returns P hs (bi_write_base dbg fuel a base chars) st text ->
  forall f, exists r, returns P hs (bi_write_base_to sink dbg fuel a base chars f) st r /\ formats sink text f r.
Proof.
  intros (st' & E & C & K) f. unfold bi_write_base, bi_write_base_to, mbind in *.
  destruct (bi_clone dbg a st) as [[sc st1]| |] eqn:E1; cbn [bind] in *; try discriminate.
  destruct (bi_digits dbg fuel base sc [] st1) as [[ds st2]| |] eqn:E2; cbn [bind] in *; try discriminate.
  unfold lift in E.
  match type of E with context [foldR ?g ?l []] => destruct (foldR g l []) as [t| |] eqn:E3 end; cbn [bind] in E; try discriminate.
  injection E as -> ->. destruct (digits_text chars _ _ _ E3) as (cs & -> & H). destruct (H f) as (r & Er & Fr). exists r.
  split; [|exact Fr]. exists st'. split; auto. unfold mbind. rewrite E1. cbn [bind]. rewrite E2. cbn [bind]. unfold lift. rewrite Er. reflexivity.
Qed.
End Sink.

(** ** C153 *)

(** BigInt: whatever text a format makes (C53, C54, C105), it is delivered piece by piece and everything it created is released, also
    when the writer refuses a piece. *)
Theorem C153_bigint : forall S (sink : S -> list Z -> S * bool) dbg fuel P st hs a text f, consistent P st hs ->
  (returns P hs (bi_display dbg fuel a) st text ->
     exists r, returns P hs (bi_fmt_display sink dbg fuel a f) st r /\ formats sink text f r) /\
  (returns P hs (bi_upper_hex dbg fuel a) st text ->
     exists r, returns P hs (bi_fmt_hex sink dbg fuel upper_hex a f) st r /\ formats sink text f r) /\
  (returns P hs (bi_lower_hex dbg fuel a) st text ->
     exists r, returns P hs (bi_fmt_hex sink dbg fuel lower_hex a f) st r /\ formats sink text f r) /\
  (returns P hs (bi_binary a) st text ->
     exists r, returns P hs (bi_fmt_binary sink a f) st r /\ formats sink text f r).
Proof.
  intros S sink dbg fuel P st hs a text f Hc.
  assert (forall f : @formatter S, returns P hs (ret (f, false)) st (f, false)) as Stop.
  { intros g. exists st. split; [reflexivity|]. split; auto. apply keeps_refl. }
  pose proof (minus_text sink a f) as Hm.
  assert (forall chars, (exists t, text = minus a ++ [48; 120] ++ t /\ returns P hs (bi_write_base dbg fuel a 16 chars) st t) ->
    exists r, returns P hs (bi_fmt_hex sink dbg fuel chars a f) st r /\ formats sink text f r) as Hex.
  { intros chars (t & -> & R). unfold bi_fmt_hex. destruct (write_minus sink a f) as [f1 [|]].
    - pose proof (formats_str sink f1 [48; 120]) as Hp. destruct (write_str sink f1 [48; 120]) as [f2 [|]].
      + destruct (base_text sink dbg P st hs fuel a 16 chars t R f2) as (r & R' & F). exists r. split; auto.
        eapply formats_app; [exact Hm|]. eapply formats_app; eauto.
      + exists (f2, false). split; auto. eapply formats_app; [exact Hm|]. apply formats_stop. auto.
    - exists (f1, false). split; auto. apply formats_stop. auto. }
  assert (forall base chars pre, returns P hs (let! s := bi_write_base dbg fuel a base chars in ret (pre ++ s)) st text ->
    exists t, text = pre ++ t /\ returns P hs (bi_write_base dbg fuel a base chars) st t) as Split.
  { intros base chars pre (st' & E & C & K). unfold mbind in E.
    destruct (bi_write_base dbg fuel a base chars st) as [[t st1]| |] eqn:E1; cbn [bind] in E; try discriminate.
    injection E as <- <-. exists t. split; auto. exists st1. auto. }
  split; [|split; [|split]]; intros R.
  - destruct (Split 10 dec_digits (minus a) R) as (t & -> & Rt). unfold bi_fmt_display. destruct (write_minus sink a f) as [f1 [|]].
    + destruct (base_text sink dbg P st hs fuel a 10 dec_digits t Rt f1) as (r & R' & F). exists r. split; auto. eapply formats_app; eauto.
    + exists (f1, false). split; auto. apply formats_stop. auto.
  - apply Hex. destruct (Split 16 upper_hex (minus a ++ [48; 120])) as (t & -> & Rt).
    { destruct R as (st' & E & R). exists st'. split; auto. rewrite <- E. unfold bi_upper_hex, mbind, ret.
      destruct (bi_write_base dbg fuel a 16 upper_hex st) as [[t st1]| |]; cbn [bind]; auto. rewrite <- app_assoc. reflexivity. }
    exists t. rewrite <- app_assoc. auto.
  - apply Hex. destruct (Split 16 lower_hex (minus a ++ [48; 120])) as (t & -> & Rt).
    { destruct R as (st' & E & R). exists st'. split; auto. rewrite <- E. unfold bi_lower_hex, mbind, ret.
      destruct (bi_write_base dbg fuel a 16 lower_hex st) as [[t st1]| |]; cbn [bind]; auto. rewrite <- app_assoc. reflexivity. }
    exists t. rewrite <- app_assoc. auto.
  - destruct R as (st' & E & C & K). unfold bi_binary, mbind in E. destruct (reads (fun st => bi_slice st a) st) as [[l st1]| |] eqn:E1; cbn [bind] in E; try discriminate.
    unfold lift in E. match type of E with context [foldR ?g ?l []] => destruct (foldR g l []) as [t| |] eqn:E3 end; cbn [bind] in E; try discriminate.
    injection E as <- <-. destruct (bits_text sink l _ _ _ E3) as (cs & -> & H). cbn [app].
    unfold bi_fmt_binary. destruct (write_minus sink a f) as [f1 [|]].
    + pose proof (formats_str sink f1 [48; 98]) as Hp. destruct (write_str sink f1 [48; 98]) as [f2 [|]].
      * destruct (H f2) as (r & Er & F). exists r. split.
        { exists st1. split; auto. unfold mbind. rewrite E1. cbn [bind]. unfold lift. rewrite Er. reflexivity. }
        eapply formats_app; [exact Hm|]. exact (formats_app sink [48; 98] cs _ _ _ Hp F).
      * exists (f2, false). split; auto. eapply formats_app; [exact Hm|]. exact (formats_stop sink [48; 98] cs _ _ Hp).
    + exists (f1, false). split; auto. apply formats_stop. auto.
Qed.
Print Assumptions C153_bigint.

(** The other numbers. *)
Theorem C153_others : forall S (sink : S -> list Z -> S * bool) f,
  (forall fuel dbg a text, u_display fuel dbg a = Ok text -> exists r, u_fmt sink fuel dbg a f = Ok r /\ formats sink text f r) /\
  (forall r, formats sink (rat_debug r) f (rat_fmt sink r f)) /\
  (forall dbg t N fuel x text, fx_debug dbg t N fuel x = Ok text -> exists r, fx_fmt sink dbg t N fuel x f = Ok r /\ formats sink text f r) /\
  (forall dbg t N x text, fx_binary dbg t N x = Ok text -> exists r, fx_fmt_binary sink dbg t N x f = Ok r /\ formats sink text f r).
Proof.
  intros S sink f. split; [|split; [|split]].
  - intros fuel dbg a text. unfold u_display, u_write_base, u_fmt. destruct (u_from_checked 8 (length a) 10) as [o| |]; cbn [bind]; try discriminate.
    destruct (unwrap o) as [b| |]; cbn [bind]; try discriminate. destruct (write_loop fuel dbg b a []) as [ds| |]; cbn [bind]; try discriminate.
    intros E. destruct (digits_text sink dec_digits (rev (match ds with [] => [0] | _ => ds end)) [] text) as (cs & -> & H); [|apply H].
    rewrite <- E. assert (forall l o', foldR (fun out d => do c <- unwrap (nth_error dec_digits (Z.to_nat d)) ;; Ok (out ++ [c])) l o' =
      foldR (fun out d => do c <- get [48; 49; 50; 51; 52; 53; 54; 55; 56; 57] (Z.to_nat d) ;; Ok (out ++ [c])) l o') as G; [|apply G].
    induction l as [|d l IH]; intros o'; cbn [foldR]; auto.
  - intros r. replace (rat_debug r) with (concat (int_pieces (num r) ++ [[32; 47; 32]] ++ int_pieces (denom r))); [apply formats_pieces|].
    unfold rat_debug, int_debug, int_pieces. rewrite !concat_app.
    destruct (num r <? 0), (denom r <? 0); cbn [concat app]; rewrite !app_nil_r; reflexivity.
  - intros dbg t N fuel x text E. unfold fx_fmt. rewrite E. cbn [bind]. eexists. split; [reflexivity|]. apply formats_str.
  - intros dbg t N x text. unfold fx_binary, fx_fmt_binary. destruct (fx_trunc dbg t N x) as [w| |]; cbn [bind]; try discriminate.
    destruct (fx_fract dbg t N x) as [p| |]; cbn [bind]; try discriminate. intros E. injection E as <-.
    eexists. split; [reflexivity|]. replace (prim_binary t w ++ 46 :: prim_binary t p) with (concat [prim_binary t w; [46]; prim_binary t p]).
    + apply formats_pieces.
    + cbn [concat app]. rewrite app_nil_r. reflexivity.
Qed.
Print Assumptions C153_others.

(** So into a [String] the whole text arrives and formatting succeeds; a full buffer holds a beginning of the text, and formatting
    fails exactly if the text does not fit. *)
Theorem C153_writers : forall text f f' ok,
  (formats string_sink text f (f', ok) -> ok = true /\ out_ f' = out_ f ++ text) /\
  (forall k, formats (buffer_sink k) text f (f', ok) -> (length (out_ f) <= k)%nat ->
     exists written rest, text = written ++ rest /\ out_ f' = out_ f ++ written /\
       (ok = true <-> (length (out_ f) + length text <= k)%nat) /\ (ok = true -> rest = [])).
Proof.
  intros text f f' ok. split.
  - intros (ps & <- & D & _). cbn in D. revert D. generalize (out_ f) as s, (out_ f') as s'. intros s s' D.
    induction D as [s|s p ps s1 s' ok E D IH|s p ps s' E]; cbn [concat].
    + rewrite app_nil_r. auto.
    + injection E as <-. destruct IH as [-> ->]. rewrite app_assoc. auto.
    + discriminate.
  - intros k (ps & <- & D & _). cbn in D. revert D. generalize (out_ f) as s, (out_ f') as s'. intros s s' D.
    induction D as [s|s p ps s1 s' ok E D IH|s p ps s' E]; intros L; cbn [concat]; unfold buffer_sink in *.
    + exists [], []. rewrite !app_nil_r. cbn [length]. split; auto. split; auto. split; auto. split; auto. intros _. lia.
    + destruct (Nat.leb_spec (length s + length p) k) as [Lp|Lp]; [|discriminate]. injection E as <-.
      destruct IH as (wr & rest & E1 & E2 & E3 & E4); [rewrite app_length; auto|]. exists (p ++ wr), rest.
      split; [rewrite E1, app_assoc; auto|]. split; [rewrite E2, app_assoc; auto|]. split; auto. rewrite E3, !app_length. lia.
    + destruct (Nat.leb_spec (length s + length p) k) as [Lp|Lp]; [discriminate|]. injection E as <-.
      exists [], (p ++ concat ps). rewrite app_nil_r. rewrite app_length. split; auto. split; auto. split; [|discriminate].
      split; [discriminate|]. lia.
Qed.
Print Assumptions C153_writers.

(** "-0" of a negative BigInt, into a buffer for one character, for two, and into a [String]. *)
Example C153_demo : exists st1,
  bi_fmt_display (buffer_sink 1) true 5 5 {| opts := default_options; out_ := [] |} demo_st
    = Ok ({| opts := default_options; out_ := [45] |}, false, st1) /\ consistent 11 st1 demo_hs.
Proof.
  destruct (C153_bigint _ (buffer_sink 1) true 5 11 demo_st demo_hs 5 [45; 48] {| opts := default_options; out_ := [] |}) as (H & _).
  { apply demo_consistent. }
  destruct (H C53_negative_demo) as (r & (st1 & E & C & _) & F). exists st1. split; auto. rewrite E. do 2 f_equal.
  assert (exists st2, bi_fmt_display (buffer_sink 1) true 5 5 {| opts := default_options; out_ := [] |} demo_st
    = Ok ({| opts := default_options; out_ := [45] |}, false, st2)) as (st2 & E2).
  { eexists. vm_compute. reflexivity. }
  congruence.
Qed.

(** ** C154 *)

Definition same {S} (r r' : @formatter S * bool) : Prop := out_ (fst r) = out_ (fst r') /\ snd r = snd r'.

Section Same.
Context {S : Type} (sink : S -> list Z -> S * bool).

Lemma same_str f f' p : out_ f = out_ f' -> same (write_str sink f p) (write_str sink f' p).
Proof. intros E. unfold write_str. rewrite E. destruct (sink (out_ f') p). split; auto. Qed.
Lemma same_minus f f' a : out_ f = out_ f' -> same (write_minus sink a f) (write_minus sink a f').
Proof. intros E. unfold write_minus. destruct (is_negative a); [apply same_str; auto|split; auto]. Qed.

Lemma same_pieces : forall ps f f', out_ f = out_ f' -> same (write_pieces sink f ps) (write_pieces sink f' ps).
Proof.
  induction ps as [|p ps IH]; intros f f' E; cbn [write_pieces]; [split; auto|].
  destruct (same_str f f' p E) as [H1 H2]. destruct (write_str sink f p) as [f1 o1], (write_str sink f' p) as [f2 o2]. cbn in H1, H2. subst o2.
  destruct o1; auto. split; auto.
Qed.
Lemma same_digits chars : forall ds f f' r, out_ f = out_ f' -> write_digits sink chars f ds = Ok r ->
  exists r', write_digits sink chars f' ds = Ok r' /\ same r r'.
Proof.
  induction ds as [|d ds IH]; intros f f' r E; cbn [write_digits].
  - intros Q. injection Q as <-. eexists. split; [reflexivity|]. split; auto.
  - destruct (unwrap (nth_error chars (Z.to_nat d))) as [c| |]; cbn [bind]; try discriminate.
    destruct (same_str f f' [c] E) as [H1 H2]. destruct (write_str sink f [c]) as [f1 o1], (write_str sink f' [c]) as [f2 o2]. cbn in H1, H2. subst o2.
    destruct o1; [apply IH; auto|]. intros Q. injection Q as <-. eexists. split; [reflexivity|]. split; auto.
Qed.
Lemma same_bits l : forall ds f f' r, out_ f = out_ f' -> write_bits sink l f ds = Ok r ->
  exists r', write_bits sink l f' ds = Ok r' /\ same r r'.
Proof.
  induction ds as [|d ds IH]; intros f f' r E; cbn [write_bits].
  - intros Q. injection Q as <-. eexists. split; [reflexivity|]. split; auto.
  - destruct (get_bit 64 l d) as [b| |]; cbn [bind]; try discriminate. set (c := if b then 49 else 48).
    destruct (same_str f f' [c] E) as [H1 H2]. destruct (write_str sink f [c]) as [f1 o1], (write_str sink f' [c]) as [f2 o2]. cbn in H1, H2. subst o2.
    destruct o1; [apply IH; auto|]. intros Q. injection Q as <-. eexists. split; [reflexivity|]. split; auto.
Qed.
Lemma same_base dbg fuel a base chars f f' st st1 r : out_ f = out_ f' -> bi_write_base_to sink dbg fuel a base chars f st = Ok (r, st1) ->
  exists r', bi_write_base_to sink dbg fuel a base chars f' st = Ok (r', st1) /\ same r r'.
Proof.
  intros E. unfold bi_write_base_to, mbind. destruct (bi_clone dbg a st) as [[sc st2]| |]; cbn [bind]; try discriminate.
  destruct (bi_digits dbg fuel base sc [] st2) as [[ds st3]| |]; cbn [bind]; try discriminate. unfold lift.
  match goal with |- context [write_digits sink chars f ?l] => destruct (write_digits sink chars f l) as [q| |] eqn:Q end; cbn [bind]; try discriminate.
  intros H. injection H as <- <-. destruct (same_digits _ _ _ f' _ E Q) as (r' & -> & Sm). eexists. split; [reflexivity|]. auto.
Qed.
End Same.

(** The options make no difference to what is written or to the outcome. *)
Theorem C154_ignored_partial : forall S (sink : S -> list Z -> S * bool) (o o' : options) (s : S),
  let f := {| opts := o; out_ := s |} in let f' := {| opts := o'; out_ := s |} in
  (forall dbg fuel a st st1 r, bi_fmt_display sink dbg fuel a f st = Ok (r, st1) ->
     exists r', bi_fmt_display sink dbg fuel a f' st = Ok (r', st1) /\ same r r') /\
  (forall dbg fuel chars a st st1 r, bi_fmt_hex sink dbg fuel chars a f st = Ok (r, st1) ->
     exists r', bi_fmt_hex sink dbg fuel chars a f' st = Ok (r', st1) /\ same r r') /\
  (forall a st st1 r, bi_fmt_binary sink a f st = Ok (r, st1) ->
     exists r', bi_fmt_binary sink a f' st = Ok (r', st1) /\ same r r') /\
  (forall fuel dbg a r, u_fmt sink fuel dbg a f = Ok r -> exists r', u_fmt sink fuel dbg a f' = Ok r' /\ same r r') /\
  (forall r, same (rat_fmt sink r f) (rat_fmt sink r f')) /\
  (forall dbg t N fuel x r, fx_fmt sink dbg t N fuel x f = Ok r -> exists r', fx_fmt sink dbg t N fuel x f' = Ok r' /\ same r r') /\
  (forall dbg t N x r, fx_fmt_binary sink dbg t N x f = Ok r -> exists r', fx_fmt_binary sink dbg t N x f' = Ok r' /\ same r r').
Proof.
  intros S sink o o' s f f'. assert (out_ f = out_ f') as E by reflexivity. generalize dependent f'. generalize f. clear f. intros f f' E.
  repeat match goal with |- _ /\ _ => split end.
  - intros dbg fuel a st st1 r. unfold bi_fmt_display. destruct (same_minus sink f f' a E) as [H1 H2].
    destruct (write_minus sink a f) as [f1 o1], (write_minus sink a f') as [f2 o2]. cbn in H1, H2. subst o2.
    destruct o1; [apply same_base; auto|]. intros Q. injection Q as <- <-. eexists. split; [reflexivity|]. split; auto.
  - intros dbg fuel chars a st st1 r. unfold bi_fmt_hex. destruct (same_minus sink f f' a E) as [H1 H2].
    destruct (write_minus sink a f) as [f1 o1], (write_minus sink a f') as [f2 o2]. cbn in H1, H2. subst o2.
    destruct o1; [|intros Q; injection Q as <- <-; eexists; split; [reflexivity|split; auto]].
    destruct (same_str sink f1 f2 [48; 120] H1) as [H3 H4].
    destruct (write_str sink f1 [48; 120]) as [f3 o3], (write_str sink f2 [48; 120]) as [f4 o4]. cbn in H3, H4. subst o4.
    destruct o3; [apply same_base; auto|]. intros Q; injection Q as <- <-; eexists; split; [reflexivity|split; auto].
  - intros a st st1 r. unfold bi_fmt_binary. destruct (same_minus sink f f' a E) as [H1 H2].
    destruct (write_minus sink a f) as [f1 o1], (write_minus sink a f') as [f2 o2]. cbn in H1, H2. subst o2.
    destruct o1; [|intros Q; injection Q as <- <-; eexists; split; [reflexivity|split; auto]].
    destruct (same_str sink f1 f2 [48; 98] H1) as [H3 H4].
    destruct (write_str sink f1 [48; 98]) as [f3 o3], (write_str sink f2 [48; 98]) as [f4 o4]. cbn in H3, H4. subst o4.
    destruct o3; [|intros Q; injection Q as <- <-; eexists; split; [reflexivity|split; auto]].
    unfold mbind. destruct (reads (fun st => bi_slice st a) st) as [[l st2]| |]; cbn [bind]; try discriminate. unfold lift.
    match goal with |- context [write_bits sink l f3 ?x] => destruct (write_bits sink l f3 x) as [q| |] eqn:Q end; cbn [bind]; try discriminate.
    intros H. injection H as <- <-. destruct (same_bits sink l _ _ f4 _ H3 Q) as (r' & -> & Sm). eexists. split; [reflexivity|]. auto.
  - intros fuel dbg a r. unfold u_fmt. destruct (u_from_checked 8 (length a) 10) as [q| |]; cbn [bind]; try discriminate.
    destruct (unwrap q) as [b| |]; cbn [bind]; try discriminate. destruct (write_loop fuel dbg b a []); cbn [bind]; try discriminate.
    apply same_digits. auto.
  - intros r. apply same_pieces. auto.
  - intros dbg t N fuel x r. unfold fx_fmt. destruct (fx_debug dbg t N fuel x) as [b| |]; cbn [bind]; try discriminate.
    intros Q. injection Q as <-. eexists. split; [reflexivity|]. apply same_str. auto.
  - intros dbg t N x r. unfold fx_fmt_binary. destruct (fx_trunc dbg t N x) as [w| |]; cbn [bind]; try discriminate.
    destruct (fx_fract dbg t N x) as [p| |]; cbn [bind]; try discriminate.
    intros Q. assert (r = write_pieces sink f [prim_binary t w; [46]; prim_binary t p]) as -> by congruence.
    eexists. split; [reflexivity|]. exact (same_pieces sink _ f f' E).
Qed.
Print Assumptions C154_ignored_partial.

Definition min_width (o : options) : nat := match width o with Some w => w | None => 0 end.

Lemma padded_same o digits : digits = padded o false [] digits <-> plus o = false /\ (min_width o <= length digits)%nat.
Proof.
  unfold padded. fold (min_width o). replace (if alternate o then [] else []) with (@nil Z) by (destruct (alternate o); auto).
  rewrite app_nil_r. set (sign := if plus o then [43] else []).
  split.
  - intros E. apply (f_equal (@length Z)) in E.
    assert (length digits = length digits + length sign + (min_width o - length (sign ++ digits)))%nat as L.
    { set (m := (min_width o - length (sign ++ digits))%nat) in *. assert (Nat.div2 m <= m)%nat as D2.
      { destruct m; auto. pose proof (Nat.lt_div2 (Datatypes.S m) ltac:(lia)). lia. }
      destruct (zero_pad o); rewrite !app_length, !repeat_length in E; [lia|]. destruct (align o) as [[| |]|]; lia. }
    rewrite app_length in L. assert (length sign = 0)%nat as Z0 by lia. unfold sign in *. destruct (plus o); [discriminate|]. cbn [length] in *. split; auto. lia.
  - intros [P W]. unfold sign. rewrite P. cbn [app]. replace (min_width o - length digits)%nat with 0%nat by lia.
    cbn [repeat app Nat.div2]. destruct (zero_pad o); auto. destruct (align o) as [[| |]|]; cbn [repeat app Nat.sub]; rewrite app_nil_r; auto.
Qed.

(** Non-negative BigInts: the text of a primitive under the same options exactly if there is no [+] and the width is not above the
    number of digits. *)
Theorem C154_display_partial : forall dbg P st hs a x o,
  consistent P st hs -> room P hs 5 -> proper st hs a x -> 0 <= x -> addressable x ->
  exists s, is_numeral 10 x s /\
    (forall fuel, (Z.to_nat (Z.log2 x) + 1 < fuel)%nat ->
       returns P hs (bi_fmt_display string_sink dbg fuel a {| opts := o; out_ := [] |}) st ({| opts := o; out_ := s |}, true)) /\
    (s = padded o false [] s <-> plus o = false /\ forall w, width o = Some w -> (w <= length s)%nat).
Proof.
  intros dbg P st hs a x o Hc Hr Hp Hx Ha. destruct (C53_printing_partial dbg P st hs a x Hc Hr Hp Hx Ha) as (s & N & H).
  exists s. split; auto. split.
  - intros fuel Hf. destruct (C153_bigint _ string_sink dbg fuel P st hs a s {| opts := o; out_ := [] |} Hc) as (D & _).
    destruct (D (H fuel Hf)) as ([f' ok] & R & F). destruct (proj1 (C153_writers s _ f' ok) F) as [-> E].
    destruct F as (_ & _ & _ & Eo). cbn in E, Eo. destruct f' as [o' s']. cbn in E, Eo. subst. exact R.
  - rewrite padded_same. unfold min_width. destruct (width o) as [w|].
    + split; intros [A B]; split; auto. intros w' E. injection E as <-. auto.
    + split; intros [A B]; split; auto; [discriminate|lia].
Qed.
Print Assumptions C154_display_partial.

(** 9 in a field of width 3 is "9" for [U<1>] and [BigInt], "  9" for a primitive; [{:+}] writes no plus sign; and [{:#b}] of the
    fixed-point number 1.5 has no "0b". *)
Definition plain := default_options.
Definition width3 : options := {| fill := 32; align := None; width := Some 3%nat; precision := None; plus := false; alternate := false; zero_pad := false |}.
Definition with_plus : options := {| fill := 32; align := None; width := None; precision := None; plus := true; alternate := false; zero_pad := false |}.
Definition sharp : options := {| fill := 32; align := None; width := None; precision := None; plus := false; alternate := true; zero_pad := false |}.
Theorem C154_refuted :
  padded width3 false [] [57] = [32; 32; 57] /\ padded with_plus false [] [57] = [43; 57] /\
  (forall o, In o [width3; with_plus] -> exists f, u_fmt string_sink 10 true [9] {| opts := o; out_ := [] |} = Ok (f, true) /\ out_ f = [57]) /\
  (denotes demo_st 38 9 /\ forall o, In o [width3; with_plus] -> exists f st',
     bi_fmt_display string_sink true 10 38 {| opts := o; out_ := [] |} demo_st = Ok (f, true, st') /\ out_ f = [57]) /\
  (exists f, fx_fmt_binary string_sink true I8 1 3 {| opts := sharp; out_ := [] |} = Ok (f, true) /\ out_ f = [49; 48; 46; 49]).
Proof.
  split; [reflexivity|]. split; [reflexivity|]. split.
  { intros o [<-|[<-|[]]]; eexists; split; vm_compute; reflexivity. }
  split.
  { split; [vm_compute; reflexivity|]. intros o [<-|[<-|[]]]; do 2 eexists; split; vm_compute; reflexivity. }
  eexists. split; vm_compute; reflexivity.
Qed.
Print Assumptions C154_refuted.

(** The hypotheses of C154_display_partial: 9 and the options of width 3. *)
Example C154_demo : consistent 11 demo_st demo_hs /\ room 11 demo_hs 5 /\ proper demo_st demo_hs 38 9 /\ addressable 9.
Proof.
  split; [apply demo_consistent|]. split; [vm_compute; discriminate|]. split; [|vm_compute; reflexivity].
  split; [right; right; right; left; auto|]. split; [vm_compute; reflexivity|vm_compute; discriminate].
Qed.
