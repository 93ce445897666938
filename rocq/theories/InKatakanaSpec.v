(** * Tokens and okurigana of a text written in katakana (C109) *)
From Verif Require Import Base Predicates.

(** the letters whose tokens are hiragana (katakana) *)
Definition hira_letter : N -> Prop := between 0x3041 0x3096.
Definition kata_letter : N -> Prop := between 0x30A1 0x30FA.
(** the two scripts are never next to each other *)
Definition scripts_apart (s : str) : Prop :=
  forall a x y b, s = a ++ x :: y :: b -> ~ (hira_letter x /\ kata_letter y) /\ ~ (kata_letter x /\ hira_letter y).
(** kana letters at the end (start) of the text are of one script *)
Definition one_script_outside (from_start : bool) (s : str) : Prop :=
  forall a b, s = (if from_start then b ++ a else a ++ b) -> Forall (fun c => hira_letter c \/ kata_letter c) b ->
    Forall hira_letter b \/ Forall kata_letter b.
