(** * Words that separate the conversion of a text (C98) *)
From Verif Require Import Base KanaSpec.

(** Whatever stands around [w], the two sides are converted each on its own, and [w] is kept. *)
Definition separates (f : str -> res str) (w : str) : Prop :=
  forall x y, exists a b, f x = Ok a /\ f y = Ok b /\ f (x ++ w ++ y) = Ok (a ++ w ++ b).

(** what goes on with an n or x in front of it *)
Definition goes_on (m : mode) (c : N) : Prop :=
  n_letter c \/ c = ch "'" \/ match m with Ime => c = ch " " | _ => y_letter c end.
Definition consonant (c : N) : Prop := exists d, lowers c d /\ In d (u "bcdfghjklmnpqrstvwxyz").

(** some character stops the search for what a long mark lengthens, before the first mark *)
Definition mark_stop (w : str) : Prop := exists run c w', w = run ++ c :: w' /\
  Forall (fun d => In d (u "・ヵヶ")) run /\ ~ In c (u "ー・ヵヶ").
