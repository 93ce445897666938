(** * Results of to_katakana and to_hiragana (C93) *)
From Verif Require Import Base KanaSpec Predicates TokenSpec FixedSpec.

(** [r] is [t] without っや, っい, っゆ, っよ (or the same in katakana) after n *)
Inductive apart_from_nyy : str -> str -> Prop :=
| an_nil : apart_from_nyy [] []
| an_nyy n p t r : n_letter n -> In p after_nyy -> apart_from_nyy t r -> apart_from_nyy (n :: p ++ t) (n :: r)
| an_char c t r : ~ (n_letter c /\ exists p t', In p after_nyy /\ t = p ++ t') ->
    apart_from_nyy t r -> apart_from_nyy (c :: t) (c :: r).

(** what is left over of a text of romaji, if it has no kana *)
Definition from_romaji (r : str) : Prop := forall c, In c r -> S_romaji c \/ In c (u "。、：！？〜［］（）｛｝").
(** what is left over of a text with English punctuation in front, if it begins with no kana *)
Definition from_punct (r : str) : Prop :=
  exists c r', r = c :: r' /\ (S_en_punct c \/ In c (u "。、：！？〜［］（）｛｝「」『』")).
Definition from_hiragana (r : str) : Prop := from_romaji r \/ from_punct r.
(** [t] is what a text that is read, with the property [from], becomes *)
Definition read_result (m : mode) (from : str -> Prop) (t : str) : Prop :=
  kana_result m t /\ (m <> Ime -> forall r, apart_from_nyy t r -> has S_kana r \/ from r).
