(** * Specification of the command line programs (C51) *)
From Verif Require Import Base.

(** the bytes [b] are the UTF-8 text of [s] *)
Definition utf8 (b : list N) (s : str) : Prop := valid_str s /\ b = encode s.
(** [w1 w2 ... wn] with a space before each word but the first *)
Definition spaced (words : list str) : str := tl (concat (map (cons 32) words)).

(** What a program built on the conversion [conv] does *)
Definition command (conv : str -> res str) (main : list (list N) -> list N -> res (list N)) : Prop :=
  (forall name args stdin p words, utf8 name p -> Forall2 utf8 args words -> spaced words <> [] ->
     exists t, conv (spaced words) = Ok t /\ valid_str t /\
               main (name :: args) stdin = Ok (encode (t ++ [10]))) /\
  (forall name args stdin p words s, utf8 name p -> Forall2 utf8 args words -> spaced words = [] ->
     utf8 stdin s ->
     exists t, conv s = Ok t /\ valid_str t /\ main (name :: args) stdin = Ok (encode t)) /\
  (forall name args stdin, (exists out, main (name :: args) stdin = Ok out) <->
     exists p words, utf8 name p /\ Forall2 utf8 args words /\
       (spaced words <> [] \/ exists s, utf8 stdin s)) /\
  (forall name args stdin, main (name :: args) stdin = Panic \/
     exists out, main (name :: args) stdin = Ok out).
