(** * Vocabulary for lengths in bytes (C96) *)
From Verif Require Import Base Std.

(** The length of the UTF-8 encoding of [s], [str::len] *)
Definition bytes (s : str) : nat := length (encode s).

(** Only İ has a lower case of more than one character. *)
Definition single_lower (E : std) : Prop := forall c, c <> 0x130 -> length (lower_char E c) = 1%nat.

(** [w], [n] times *)
Definition times (n : nat) (w : str) : str := concat (repeat w n).
