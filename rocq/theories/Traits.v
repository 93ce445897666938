(** * traits.rs: the methods that are the public interface

    The modules of the functions are private to the crate (lib.rs:61-74; re-exported at 90); outside of it the
    conversions and predicates are reached through the three traits only. *)
From Verif Require Import Base Std Chars Strings Convert.

(** traits.rs:117-157, [impl ConvertJapanese for &str] *)
Definition str_to_kana (E : std) (self : str) : res str := to_kana E self.
Definition str_to_kana_with_opt (E : std) (self : str) (o : options) : res str := to_kana_with_opt E self o.
Definition str_to_hiragana (E : std) (self : str) : res str := to_hiragana E self.
Definition str_to_hiragana_with_opt (E : std) (self : str) (o : options) : res str := to_hiragana_with_opt E self o.
Definition str_to_katakana (E : std) (self : str) : res str := to_katakana E self.
Definition str_to_katakana_with_opt (E : std) (self : str) (o : options) : res str := to_katakana_with_opt E self o.
Definition str_to_romaji (E : std) (self : str) : res str := to_romaji E self.
Definition str_to_romaji_with_opt (E : std) (self : str) (o : options) : res str := to_romaji_with_opt E self o.

(** traits.rs:310-367, [impl IsJapaneseStr for &str] *)
Definition str_is_hiragana (self : str) : bool := is_hiragana self.
Definition str_is_katakana (self : str) : bool := is_katakana self.
Definition str_is_kana (self : str) : bool := is_kana self.
Definition str_is_kanji (self : str) : bool := is_kanji self.
Definition str_contains_kanji (self : str) : bool := contains_kanji self.
Definition str_is_japanese_with_whitelist (self : str) (allowed : option regex) : bool :=
  is_japanese_with_whitelist self allowed.
Definition str_is_japanese (self : str) : bool := is_japanese self.
Definition str_is_romaji (self : str) : bool := is_romaji self.
Definition str_is_romaji_with_whitelist (self : str) (allowed : option regex) : bool :=
  is_romaji_with_whitelist self allowed.
Definition str_is_mixed (self : str) : bool := is_mixed self.
Definition str_is_mixed_pass_kanji (self : str) (pass_kanji : bool) : bool := is_mixed_pass_kanji self pass_kanji.

(** traits.rs:389-424, [impl IsJapaneseChar for char] *)
Definition chr_is_hiragana (self : char) : bool := is_char_hiragana self.
Definition chr_is_katakana (self : char) : bool := is_char_katakana self.
Definition chr_is_kana (self : char) : bool := is_char_kana self.
Definition chr_is_kanji (self : char) : bool := is_char_kanji self.
Definition chr_is_japanese (self : char) : bool := is_char_japanese self.
Definition chr_is_japanese_number (self : char) : bool := is_char_japanese_number self.
Definition chr_is_japanese_punctuation (self : char) : bool := is_char_japanese_punctuation self.
