(** * A change in a text changes what becomes of it only nearby (C94, C95) *)
From Verif Require Import Base.

(** the number of characters other than ー ・ ヵ ヶ, over which a long mark reaches back *)
Definition others (s : str) : nat := length (filter (fun c => negb (existsb (N.eqb c) (u "ー・ヵヶ"))) s).
