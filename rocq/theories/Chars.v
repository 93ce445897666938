(** * utils/is_char_*.rs: predicates on characters *)
From Verif Require Import Base Constants.
Local Open Scope N_scope.

(** utils/is_char_in_range.rs:10-12 *)
Definition is_char_in_range (c : char) (start stop : N) : bool :=
  (start <=? c) && (c <=? stop).
(** the closure [|el| is_char_in_range(char, el[0], el[1])] under [.iter().any] *)
Definition in_ranges (c : char) (rs : list range) : bool :=
  existsb (fun el => is_char_in_range c (fst el) (snd el)) rs.

(** utils/is_char_long_dash.rs:4-6 *)
Definition is_char_long_dash (c : char) : bool := c =? PROLONGED_SOUND_MARK.
(** utils/is_char_slash_dot.rs:5-7 *)
Definition is_char_slash_dot (c : char) : bool := c =? KANA_SLASH_DOT.
(** utils/is_char_hiragana.rs:6-11 *)
Definition is_char_hiragana (c : char) : bool :=
  if is_char_long_dash c then true
  else is_char_in_range c HIRAGANA_START HIRAGANA_END.
(** utils/is_char_katakana.rs:6-8 *)
Definition is_char_katakana (c : char) : bool :=
  is_char_in_range c KATAKANA_START KATAKANA_END.
(** utils/is_char_kana.rs:6-8 *)
Definition is_char_kana (c : char) : bool := is_char_hiragana c || is_char_katakana c.
(** utils/is_char_kanji.rs:3-4 *)
Definition KANJI_START : N := 0x4E00.
Definition KANJI_END : N := 0x9FAF.
(** utils/is_char_kanji.rs:7-9 *)
Definition is_char_kanji (c : char) : bool := is_char_in_range c KANJI_START KANJI_END.
(** utils/is_char_japanese.rs:6-10 *)
Definition is_char_japanese (c : char) : bool := in_ranges c JAPANESE_RANGES.
(** utils/is_char_japanese_number.rs:6-8 *)
Definition is_char_japanese_number (c : char) : bool :=
  is_char_in_range c (fst ZENKAKU_NUMBERS) (snd ZENKAKU_NUMBERS).
(** utils/is_char_japanese_punctuation.rs:6-10 *)
Definition is_char_japanese_punctuation (c : char) : bool := in_ranges c JA_PUNCTUATION_RANGES.
(** utils/is_char_english_punctuation.rs:7-11 *)
Definition is_char_english_punctuation (c : char) : bool := in_ranges c EN_PUNCTUATION_RANGES.
(** utils/is_char_punctuation.rs:6-8 *)
Definition is_char_punctuation (c : char) : bool :=
  is_char_english_punctuation c || is_char_japanese_punctuation c.
(** utils/is_char_latin_number.rs:6-8 *)
Definition is_char_latin_number (c : char) : bool :=
  is_char_in_range c (fst LATIN_NUMBERS) (snd LATIN_NUMBERS).
(** utils/is_char_romaji.rs:5-9 *)
Definition is_char_romaji (c : char) : bool := in_ranges c ROMAJI_RANGES.
(** utils/is_char_upper_case.rs:6-8 *)
Definition is_char_upper_case (c : char) : bool :=
  is_char_in_range c UPPERCASE_START UPPERCASE_END.

(** membership in a character pattern ['b' | 'c' | ...] *)
Definition char_in (c : char) (l : str) : bool := existsb (N.eqb c) l.
(** utils/is_char_consonant.rs:6-13 *)
Definition is_char_consonant (c : char) (include_y : bool) : bool :=
  if char_in c (u "bcdfghjklmnpqrstvwxz") then true
  else if (c =? ch "y") && include_y then true
  else false.
(** utils/is_char_vowel.rs:9-15 *)
Definition is_char_vowel_opt (c : char) (include_y : bool) : bool :=
  if char_in c (u "aeiou") then true
  else if (c =? ch "y") && include_y then true
  else false.
(** utils/is_char_vowel.rs:2-4 *)
Definition is_char_vowel (c : char) : bool := is_char_vowel_opt c true.

(** traits.rs:389-424, [impl IsJapaneseChar for char]: each method forwards to
    the function of the same meaning above, so the API predicates are
    [is_char_hiragana], [is_char_katakana], [is_char_kana], [is_char_kanji],
    [is_char_japanese], [is_char_japanese_number], [is_char_japanese_punctuation]. *)
