(** * Texts with the same romaji (C74) *)
From Verif Require Import Base RomajiSpec.

(** text made of standard morae *)
Definition standard_text (h : str) : Prop := exists ms, Forall standard ms /\ kana_text ms = h.
(** the same kana, or both of じ and ぢ, or both of ず and づ *)
Definition alike (c d : char) : Prop :=
  c = d \/ (In c (u "じぢ") /\ In d (u "じぢ")) \/ (In c (u "ずづ") /\ In d (u "ずづ")).
