(** * Typing with to_hiragana and to_katakana in IME mode (C72) *)
From Verif Require Import Base KanaSpec Predicates ScriptSpec TypingSpec.

(** what is shown can be typed on: it has a kana, or is romaji throughout *)
Definition typeable_on (shown : str) : Prop :=
  has (fun c => S_hiragana c \/ S_katakana c) shown \/ (forall c, In c shown -> S_romaji c).

(** the punctuation that to_kana turns into Japanese punctuation *)
Definition typed_punctuation : str := u ".,:!?~[](){}".
