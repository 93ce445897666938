(** * The comparisons made by the conversions: specification (C100) *)
From Verif Require Import Base KanaSpec.

(** [c], or its small letter, is the first character of a key *)
Definition begins (m : mode) (c : N) : Prop := exists d k v, lowers c d /\ entry m (d :: k) v.
(** [n] of the characters of [s] begin no key *)
Inductive begin_none (m : mode) : str -> nat -> Prop :=
| BN_nil : begin_none m [] 0
| BN_key c s n : begins m c -> begin_none m s n -> begin_none m (c :: s) n
| BN_other c s n : ~ begins m c -> begin_none m s n -> begin_none m (c :: s) (S n).
