(** * C35-C39, C56: predicates on characters and strings

    The sets S_... are in Predicates.v, written as ranges of code points and lists of
    characters. *)
From Verif Require Import Base Constants Chars Strings KanaSpec Predicates Results_Predicates.

(** C35.  Every character predicate is the stated set, and the sets fit together. *)
Theorem C35_character_classes :
  forall c : N,
  (is_char_hiragana c = true <-> S_hiragana c) /\
  (is_char_katakana c = true <-> S_katakana c) /\
  (is_char_kanji c = true <-> S_kanji c) /\
  (is_char_romaji c = true <-> S_romaji c) /\
  (is_char_japanese_number c = true <-> S_ja_number c) /\
  (is_char_japanese_punctuation c = true <-> S_ja_punct c) /\
  (is_char_english_punctuation c = true <-> S_en_punct c) /\
  (is_char_japanese c = true <-> S_japanese c) /\
  (is_char_kana c = true <-> is_char_hiragana c = true \/ is_char_katakana c = true) /\
  (is_char_punctuation c = true <->
     is_char_english_punctuation c = true \/ is_char_japanese_punctuation c = true) /\
  (is_char_kana c = true \/ is_char_kanji c = true \/ is_char_japanese_number c = true
     \/ is_char_japanese_punctuation c = true -> is_char_japanese c = true) /\
  (is_char_romaji c = true -> is_char_japanese c = false) /\
  (is_char_english_punctuation c = true -> is_char_japanese_punctuation c = false
     /\ is_char_japanese c = false) /\
  (is_char_hiragana c = true -> is_char_katakana c = true -> c = ch "ー") /\
  (is_char_kana c = true -> is_char_kanji c = false).
Proof. exact C35_character_classes_proof. Qed.
Print Assumptions C35_character_classes.

Example C35_case : is_char_hiragana (ch "ゖ") = true /\ is_char_hiragana (ch "ー") = true /\ is_char_katakana (ch "ー") = true
  /\ is_char_kanji (ch "漢") = true /\ is_char_romaji (ch "ō") = true /\ is_char_japanese (ch "ｱ") = true
  /\ is_char_kana (ch "ｱ") = false.
Proof. vm_compute. auto 10. Qed.

(** C36.  The string predicates quantify over the characters of non-empty text, and are
    homomorphisms. *)
Theorem C36_string_predicates :
  (forall s, is_hiragana s = true <-> all_nonempty S_hiragana s) /\
  (forall s, is_katakana s = true <-> all_nonempty S_katakana s) /\
  (forall s, is_kana s = true <-> all_nonempty (fun c => S_hiragana c \/ S_katakana c) s) /\
  (forall s, is_kanji s = true <-> all_nonempty S_kanji s) /\
  (forall s, is_romaji s = true <-> all_nonempty S_romaji s) /\
  (forall s, is_japanese s = true <-> all_nonempty S_japanese s) /\
  (forall s, contains_kanji s = true <-> exists c, In c s /\ S_kanji c) /\
  (forall a b, a <> [] -> b <> [] ->
     is_hiragana (a ++ b) = is_hiragana a && is_hiragana b /\
     is_katakana (a ++ b) = is_katakana a && is_katakana b /\
     is_kana (a ++ b) = is_kana a && is_kana b /\
     is_kanji (a ++ b) = is_kanji a && is_kanji b /\
     is_romaji (a ++ b) = is_romaji a && is_romaji b /\
     is_japanese (a ++ b) = is_japanese a && is_japanese b) /\
  (forall a b, contains_kanji (a ++ b) = contains_kanji a || contains_kanji b).
Proof. exact C36_string_predicates_proof. Qed.
Print Assumptions C36_string_predicates.

Example C36_case : is_kana (u "ひらカナー") = true /\ is_hiragana (u "ひらカナ") = false /\ is_hiragana [] = false
  /\ contains_kanji (u "食べル") = true.
Proof. vm_compute. auto. Qed.

(** C37.  Implications between the string predicates. *)
Theorem C37_implications :
  forall s,
  (is_hiragana s = true \/ is_katakana s = true -> is_kana s = true) /\
  (is_kana s = true -> is_japanese s = true /\ contains_kanji s = false) /\
  (is_kanji s = true -> is_japanese s = true /\ contains_kanji s = true /\ is_kana s = false) /\
  (is_romaji s = true -> is_japanese s = false /\ is_kana s = false /\ is_kanji s = false
     /\ contains_kanji s = false /\ is_mixed s = false) /\
  (is_japanese s = true -> is_mixed s = false).
Proof. exact C37_implications_proof. Qed.
Print Assumptions C37_implications.

Example C37_case : is_katakana (u "カナ") = true /\ is_kanji (u "漢字") = true /\ is_romaji (u "abc!") = true
  /\ is_japanese (u "漢字、カナ") = true.
Proof. vm_compute. auto. Qed.

(** C38.  [is_mixed]: some kana and some romaji (and no kanji unless allowed). *)
Theorem C38_is_mixed :
  (forall s, is_mixed s = true <->
     has (fun c => S_hiragana c \/ S_katakana c) s /\ has S_romaji s) /\
  (forall s, is_mixed_pass_kanji s true = is_mixed s) /\
  (forall s, is_mixed_pass_kanji s false = true <-> is_mixed s = true /\ ~ has S_kanji s) /\
  (forall s t p, (forall c, In c s <-> In c t) ->
     is_mixed_pass_kanji s p = is_mixed_pass_kanji t p).
Proof. exact C38_is_mixed_proof. Qed.
Print Assumptions C38_is_mixed.

Example C38_case : is_mixed (u "Abあア漢") = true /\ is_mixed_pass_kanji (u "Abあア漢") false = false
  /\ is_mixed (u "ab漢") = false.
Proof. vm_compute. auto. Qed.

(** C39.  Partial: what the whitelist variants compute.  The regex is run on the whole text,
    not on the offending character, so the documented reading fails (see
    [C39_whitelist_refuted]). *)
Theorem C39_whitelist_partial :
  (forall s, is_japanese_with_whitelist s None = is_japanese s) /\
  (forall s, is_romaji_with_whitelist s None = is_romaji s) /\
  (forall s (re : regex), is_japanese_with_whitelist s (Some re) = true <->
     s <> [] /\ ((forall c, In c s -> S_japanese c) \/ re s = true)) /\
  (forall s (re : regex), is_romaji_with_whitelist s (Some re) = true <->
     s <> [] /\ ((forall c, In c s -> S_romaji c) \/ re s = true)).
Proof. exact C39_whitelist_partial_proof. Qed.
Print Assumptions C39_whitelist_partial.

Example C39_case : is_japanese_with_whitelist (u "あa") (Some (re_contains (u "a"))) = true
  /\ is_japanese_with_whitelist (u "あb") (Some (re_contains (u "a"))) = false.
Proof. vm_compute. auto. Qed.

(** C39.  Refuted, for both functions: one whitelisted character excuses every other one. *)
Theorem C39_whitelist_refuted :
  (~ forall s (re : regex), is_japanese_with_whitelist s (Some re) = true <->
       s <> [] /\ forall c, In c s -> S_japanese c \/ re [c] = true) /\
  (~ forall s (re : regex), is_romaji_with_whitelist s (Some re) = true <->
       s <> [] /\ forall c, In c s -> S_romaji c \/ re [c] = true).
Proof. exact C39_whitelist_refuted_proof. Qed.
Print Assumptions C39_whitelist_refuted.

Example C39_witness : is_romaji_with_whitelist (u "あか") (Some (re_contains (u "あ"))) = true
  /\ is_romaji_with_whitelist (u "か") (Some (re_contains (u "あ"))) = false
  /\ is_japanese_with_whitelist (u "ab") (Some (re_contains (u "a"))) = true.
Proof. vm_compute. auto. Qed.

(** C56.  The letter predicates: digits, upper case, vowels, consonants.  Every lower-case
    letter other than y is exactly one of vowel and consonant; y is one when asked for;
    nothing else is either. *)
Theorem C56_letters :
  forall c : N,
  (is_char_latin_number c = true <-> between 0x30 0x39 c) /\
  (is_char_upper_case c = true <-> upper_letter c) /\
  (is_char_long_dash c = true <-> c = ch "ー") /\
  (is_char_slash_dot c = true <-> c = ch "・") /\
  (forall y, is_char_vowel_opt c y = true <-> In c (u "aeiou") \/ (y = true /\ c = ch "y")) /\
  is_char_vowel c = is_char_vowel_opt c true /\
  (forall y, is_char_consonant c y = true <->
     lower_letter c /\ ~ In c (u "aeiou") /\ (c = ch "y" -> y = true)) /\
  (forall y, lower_letter c <-> is_char_vowel_opt c y || is_char_consonant c (negb y) = true) /\
  (forall y, is_char_vowel_opt c y && is_char_consonant c (negb y) = false).
Proof. exact C56_letters_proof. Qed.
Print Assumptions C56_letters.

Example C56_case : is_char_vowel (ch "y") = true /\ is_char_consonant (ch "y") false = false
  /\ is_char_consonant (ch "k") false = true /\ is_char_vowel (ch "A") = false.
Proof. vm_compute. auto. Qed.
