(** * Vocabulary for growing buffers (C97) *)
From Coq Require Import PeanoNat.
From Verif Require Import Base BytesSpec Alloc.

(** A buffer that has to be made larger gets room for what is to be written, and at least doubles. *)
Definition doubles (grow : nat -> nat -> nat) : Prop :=
  forall cap need, (cap < need)%nat -> (need <= grow cap need /\ 2 * cap <= grow cap need)%nat.

(** written into without ever being made larger *)
Definition never_grown (b : buffer) (s : str) (cap : nat) : Prop :=
  contents b = s /\ capacity b = cap /\ grown b = 0%nat.
