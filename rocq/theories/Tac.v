(** * Proof tactics (no definitions) *)
From Coq Require Import Bool.
From Coq Require Export Lia ZifyBool ZifyN Arith.

(** case analysis on the conditions of the goal *)
Ltac ifs := repeat match goal with |- context [if ?b then _ else _] => destruct b eqn:? end.
Ltac ifs_in H := repeat match type of H with context [if ?b then _ else _] => destruct b eqn:? end.
Ltac andbs := repeat match goal with
  | H : _ && _ = true |- _ => apply andb_prop in H; destruct H
  end.
