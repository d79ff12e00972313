(** Laws of arithmetic and of bit operations, for any type of values [V] (C185).  Nothing in this file refers to the model of the code. *)
From Coq Require Import List.

Definition ring_laws {T : Type} (V : T -> Prop) (add sub mul : T -> T -> T) (zero one : T) : Prop :=
  V zero /\ V one /\ forall a b c, V a -> V b -> V c ->
    V (add a b) /\ V (sub a b) /\ V (mul a b) /\
    add a b = add b a /\ add (add a b) c = add a (add b c) /\ add a zero = a /\
    sub a a = zero /\ sub (add a b) b = a /\ add (sub a b) b = a /\ sub a (add b c) = sub (sub a b) c /\ sub a (sub b c) = add (sub a b) c /\
    mul a b = mul b a /\ mul (mul a b) c = mul a (mul b c) /\ mul a one = a /\ mul a zero = zero /\
    mul a (add b c) = add (mul a b) (mul a c) /\ mul a (sub b c) = sub (mul a b) (mul a c).

Definition negation_laws {T : Type} (V : T -> Prop) (add sub mul : T -> T -> T) (neg : T -> T) (zero : T) : Prop :=
  forall a b, V a -> V b ->
    V (neg a) /\ neg (neg a) = a /\ add a (neg a) = zero /\ sub a b = add a (neg b) /\ neg a = sub zero a /\
    neg (add a b) = add (neg a) (neg b) /\ neg (sub a b) = sub b a /\ mul (neg a) b = neg (mul a b) /\ mul (neg a) (neg b) = mul a b.

Definition boolean_laws {T : Type} (V : T -> Prop) (and or xor : T -> T -> T) (not : T -> T) (none all : T) : Prop :=
  V none /\ V all /\ forall a b c, V a -> V b -> V c ->
    V (and a b) /\ V (or a b) /\ V (xor a b) /\ V (not a) /\
    and a b = and b a /\ or a b = or b a /\ xor a b = xor b a /\
    and (and a b) c = and a (and b c) /\ or (or a b) c = or a (or b c) /\ xor (xor a b) c = xor a (xor b c) /\
    and a (or b c) = or (and a b) (and a c) /\ or a (and b c) = and (or a b) (or a c) /\ and a (xor b c) = xor (and a b) (and a c) /\
    and a (or a b) = a /\ or a (and a b) = a /\ not (not a) = a /\ not (and a b) = or (not a) (not b) /\ not (or a b) = and (not a) (not b) /\
    and a (not a) = none /\ or a (not a) = all /\ xor a a = none /\ xor (xor a b) b = a /\ xor a all = not a /\
    and a all = a /\ or a none = a.
