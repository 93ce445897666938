(** * Specification of the kana that can be typed (C67) *)
From Verif Require Import Base KanaSpec.

(** all kana letters except small ゕ, ゖ and ヷ, ヸ, ヹ, ヺ; the obsolete ones only in their mode *)
Definition typeable_kana (m : mode) (c : N) : Prop :=
  (hiragana_letter c /\ ~ In c (u "ゕゖ") /\ (In c (u "ゐゑ") -> m = Obsolete))
  \/ (katakana_letter c /\ ~ In c (u "ヷヸヹヺ") /\ (In c (u "ヰヱ") -> m = Obsolete))
  \/ In c (u "・ー").
(** the kana blocks of Unicode, without the marks ゛゜ゝゞゟ゠ヽヾヿ *)
Definition kana_char_or_mark (c : N) : Prop :=
  hiragana_letter c \/ katakana_letter c \/ In c (u "・ー").
Definition ascii (c : N) : Prop := c < 128.
