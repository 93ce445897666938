(** * Text with っち (C112) *)
From Verif Require Import Base.

(** a small tsu before chi, in either script; marks ー after ッ are not read, and may stand between *)
Definition tch_text (s : str) : Prop := exists a x w y b, s = a ++ x :: w ++ y :: b /\ In y (u "ちチ") /\
  ((x = ch "っ" /\ w = []) \/ (x = ch "ッ" /\ Forall (eq (ch "ー")) w)).
