(** Model of the formatting of this crate's numbers through a [fmt::Formatter]: the formatter's options, and an underlying
    [fmt::Write] that may refuse a piece of text.

    A writer is a state [S] and a function that takes one [write_str] call to the new state and whether it succeeded; [write_char]
    is [write_str] of one character, and [write!] of a literal is one [write_str].  Text is a list of character codes. *)
From Coq Require Import ZArith List Bool.
From Verif Require Import RatModel TextRandModel Base BitSliceModel InternModel BigIntModel UModel PrimModel FixedModel FixedTextModel.
Import ListNotations.
Local Open Scope Z_scope.

(** std [fmt::Alignment].  No code of its own. *)
Inductive alignment := ALeft | ACenter | ARight.

(** std [fmt::FormattingOptions].
    Used through crates/ints/src/big_int.rs:273-325, crates/ints/src/u.rs [Display] and crates/reals/src/fixed.rs:50-90. *)
Record options := {
  fill : Z;
  align : option alignment;
  width : option nat;
  precision : option nat;
  plus : bool;
  alternate : bool;
  zero_pad : bool
}.
Definition default_options : options :=
  {| fill := 32; align := None; width := None; precision := None; plus := false; alternate := false; zero_pad := false |}.

Section Sink.
Context {S : Type} (sink : S -> list Z -> S * bool).

(** std [fmt::Formatter]: options and the writer.  [Formatter::write_str] and [write_char] hand the text to the writer and
    look at no option.  Used in the same places, e.g. crates/reals/src/fixed.rs:76. *)
Record formatter := { opts : options; out_ : S }.
Definition write_str (f : formatter) (s : list Z) : formatter * bool :=
  let '(o, ok) := sink (out_ f) s in ({| opts := opts f; out_ := o |}, ok).

(** [w.write_char(..)?] for several characters, [write!(f, ..)?] for several pieces.  crates/ints/src/big_int.rs:226, 286-289. *)
Fixpoint write_pieces (f : formatter) (pieces : list (list Z)) : formatter * bool :=
  match pieces with
  | [] => (f, true)
  | p :: ps => let '(f, ok) := write_str f p in if ok then write_pieces f ps else (f, false)
  end.

(** [for &d in digits { w.write_char(chars[d as usize])?; }], crates/ints/src/big_int.rs:225-227 and crates/ints/src/u.rs:112-114;
    the index may panic. *)
Fixpoint write_digits (chars : list Z) (f : formatter) (ds : list Z) : res (formatter * bool) :=
  match ds with
  | [] => Ok (f, true)
  | d :: ds =>
    do c <- unwrap (nth_error chars (Z.to_nat d)) ;;
    let '(f, ok) := write_str f [c] in
    if ok then write_digits chars f ds else Ok (f, false)
  end.

(** crates/ints/src/big_int.rs:208-229 [write_base]. *)
Definition bi_write_base_to (dbg : bool) (fuel : nat) (a base : Z) (chars : list Z) (f : formatter) : M (formatter * bool) :=
  let! scratch := bi_clone dbg a in
  let! digits := bi_digits dbg fuel base scratch [] in
  let digits := match digits with [] => [0] | _ => digits end in
  lift (write_digits chars f (rev digits)).

(** [if self.is_negative() { write!(f, "-")?; }].  crates/ints/src/big_int.rs:274-275, 283-284, 302-303, 316-317. *)
Definition write_minus (a : Z) (f : formatter) : formatter * bool :=
  if is_negative a then write_str f [45] else (f, true).

(** crates/ints/src/big_int.rs:270-279 [Display] (and [Debug], 264-268). *)
Definition bi_fmt_display (dbg : bool) (fuel : nat) (a : Z) (f : formatter) : M (formatter * bool) :=
  let '(f, ok) := write_minus a f in
  if ok then bi_write_base_to dbg fuel a 10 dec_digits f else ret (f, false).

(** crates/ints/src/big_int.rs:296-308 [UpperHex] and 310-322 [LowerHex]. *)
Definition bi_fmt_hex (dbg : bool) (fuel : nat) (chars : list Z) (a : Z) (f : formatter) : M (formatter * bool) :=
  let '(f, ok) := write_minus a f in
  if ok then
    let '(f, ok) := write_str f [48; 120] in
    if ok then bi_write_base_to dbg fuel a 16 chars f else ret (f, false)
  else ret (f, false).

(** crates/ints/src/big_int.rs:287-292, the loop over the bits; each [write!(f, "{}", ..)] of 0 or 1 is one [write_str]. *)
Fixpoint write_bits (l : list Z) (f : formatter) (idxs : list nat) : res (formatter * bool) :=
  match idxs with
  | [] => Ok (f, true)
  | i :: idxs =>
    do b <- get_bit 64 l i ;;
    let '(f, ok) := write_str f [if b : bool then 49 else 48] in
    if ok then write_bits l f idxs else Ok (f, false)
  end.

(** crates/ints/src/big_int.rs:281-294 [Binary]. *)
Definition bi_fmt_binary (a : Z) (f : formatter) : M (formatter * bool) :=
  let '(f, ok) := write_minus a f in
  if ok then
    let '(f, ok) := write_str f [48; 98] in
    if ok then
      let! l := reads (fun st => bi_slice st a) in
      lift (write_bits l f (rev (seq 0 (bit_len 64 l))))
    else ret (f, false)
  else ret (f, false).

(** crates/ints/src/u.rs:94-116 [write_base], 232-237 [Display] (and [Debug], 226-230). *)
Definition u_fmt (fuel : nat) (dbg : bool) (a : U) (f : formatter) : res (formatter * bool) :=
  do o <- u_from_checked 8 (length a) 10 ;;
  do b <- unwrap o ;;
  do digits <- write_loop fuel dbg b a [] ;;
  let digits := match digits with [] => [0] | _ => digits end in
  write_digits dec_digits f (rev digits).

(** The [write_str] calls of std's [Debug] for a primitive integer under the options of a plain ["{:?}"].
    Used in crates/reals/src/fixed.rs:68. *)
Definition int_pieces (v : Z) : list (list Z) :=
  (if v <? 0 then [[45]] else []) ++ [decimal (Datatypes.S (Z.to_nat (Z.log2 (Z.abs v)))) (Z.abs v)].

(** crates/reals/src/rat.rs:82-87: [write!(f, "{:?} / {:?}", ..)]; the placeholders carry their own (default) options. *)
Definition rat_fmt (r : rat) (f : formatter) : formatter * bool :=
  write_pieces f (int_pieces (num r) ++ [[32; 47; 32]] ++ int_pieces (denom r)).

(** crates/reals/src/fixed.rs:50-79 [Debug]: the text is built in a [String] and written at once. *)
Definition fx_fmt (dbg : bool) (t : ity) (N fuel : nat) (x : Z) (f : formatter) : res (formatter * bool) :=
  do buf <- fx_debug dbg t N fuel x ;; Ok (write_str f buf).

(** crates/reals/src/fixed.rs:86-93 [Binary]: both numbers are computed before anything is written. *)
Definition fx_fmt_binary (dbg : bool) (t : ity) (N : nat) (x : Z) (f : formatter) : res (formatter * bool) :=
  do w <- fx_trunc dbg t N x ;;
  do p <- fx_fract dbg t N x ;;
  Ok (write_pieces f [prim_binary t w; [46]; prim_binary t p]).
End Sink.
