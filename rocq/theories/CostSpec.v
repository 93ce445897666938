(** * The work done by the conversions: specification (C90) *)
From Verif Require Import Base Std Predicates KanaSpec ScriptSpec.

(** [s] stands after [a]: the number of its long marks that lengthen a letter, and the sum of
    their positions in the whole text *)
Inductive lengthening : str -> str -> nat -> nat -> Prop :=
| L_nil a : lengthening a [] 0 0
| L_mark a s k n p : lengthens a k -> lengthening (a ++ [long_mark]) s n p ->
    lengthening a (long_mark :: s) (S n) (length a + p)
| L_other a c s n p : ~ (c = long_mark /\ exists k, lengthens a k) ->
    lengthening (a ++ [c]) s n p -> lengthening a (c :: s) n p.
