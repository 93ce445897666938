(** * The order of texts (C110)

    Rust compares strings byte by byte in their UTF-8 form ([impl Ord for str]). *)
From Verif Require Import Base Predicates.

Inductive lex : list N -> list N -> Prop :=
| lex_end y b : lex [] (y :: b)
| lex_here x y a b : x < y -> lex (x :: a) (y :: b)
| lex_later x a b : lex a b -> lex (x :: a) (x :: b).
Definition text_lt (s t : str) : Prop := lex (encode s) (encode t).
(** [s] is written with the characters [P] *)
Definition over (P : N -> Prop) (s : str) : Prop := Forall P s.
