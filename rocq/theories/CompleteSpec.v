(** * Texts that are converted completely (C79, C80) *)
From Verif Require Import Base KanaSpec Predicates TokenSpec KanaJoinSpec.

(** a kana, or a key that stands for kana *)
Definition kana_piece (m : mode) (p : str) : Prop :=
  (exists c, p = [c] /\ S_kana c) \/ (exists k v, casing p k /\ entry m k v /\ Forall S_kana v).
(** The text can be cut into such pieces, in some way.  Outside of IME mode, nyy is not read. *)
Definition complete (m : mode) (s : str) : Prop :=
  (exists ps, s = concat ps /\ Forall (kana_piece m) ps) /\
  (m <> Ime -> forall x y y' z, s = x ++ y :: y' :: z -> open_n m x -> y_letter y -> ~ y_letter y').
(** the keys that stand for kana but not for hiragana: ・, and the small ヵ and ヶ *)
Definition not_hiragana : list str :=
  [u "/"; u "lka"; u "lke"; u "lca"; u "lce"; u "xka"; u "xke"; u "xca"; u "xce"].
Definition has_not_hiragana (s : str) : Prop :=
  exists x b k y, s = x ++ b ++ y /\ casing b k /\ In k not_hiragana.

(** ** to_romaji (C80) *)
(** the characters with a reading in romaji letters; 「」『』 are turned into curly quotes and
    ゕ ゖ ヵ ヶ have no reading *)
Definition readable (c : N) : Prop :=
  S_romaji c \/ (S_kana c /\ ~ In c (u "ゕゖヵヶ")) \/ In c (u "　、。〜！（）：？［］｛｝").
(** nothing but っ and ッ, and marks that lengthen ッ *)
Definition only_tsu (s : str) : Prop :=
  Forall (fun c => In c (u "っッー")) s /\
  forall x y, s = x ++ 0x30FC :: y -> exists x' c, x = x' ++ [c] /\ In c (u "ッー").
