(** * Texts that the conversions leave as they are (C81) *)
From Verif Require Import Base KanaSpec Predicates TokenSpec.

(** no key stands in the text, except n in front of y *)
Definition untouched (m : mode) (s : str) : Prop :=
  forall x b k v y, s = x ++ b ++ y -> casing b k -> entry m k v ->
    k = u "n" /\ exists c y', y = c :: y' /\ y_letter c.

(** the characters that have a romaji reading *)
Definition romanised (c : N) : Prop :=
  (S_kana c /\ ~ In c (u "ゕゖヵヶ")) \/ In c (u "　、。〜！（）：？［］｛｝「」『』").

(** ** Results (C82) *)
(** what becomes of yya, yyi, yyu, yye and yyo begins with one of these *)
Definition after_nyy : list str := [u "っや"; u "っい"; u "っゆ"; u "っよ"; u "ッヤ"; u "ッイ"; u "ッユ"; u "ッヨ"].
(** no key stands in the text, except n in front of y or of one of these *)
Definition kana_result (m : mode) (t : str) : Prop :=
  forall x b k v y, t = x ++ b ++ y -> casing b k -> entry m k v ->
    k = u "n" /\ ((exists c y', y = c :: y' /\ y_letter c) \/ exists p y', In p after_nyy /\ y = p ++ y').
