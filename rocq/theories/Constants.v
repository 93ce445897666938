(** * constants.rs *)
From Verif Require Import Base.

(** A Unicode block [[u32; 2]]: first and last code point. *)
Definition range := (N * N)%type.

(** constants.rs:5-8 *)
Definition CJK_SYMBOLS_PUNCTUATION : range := (0x3000, 0x303F).
Definition KATAKANA_PUNCTUATION : range := (0x30FB, 0x30FC).
Definition HIRAGANA_CHARS : range := (0x3040, 0x309F).
Definition KATAKANA_CHARS : range := (0x30A0, 0x30FF).
(** constants.rs:10-13 *)
Definition LOWERCASE_ZENKAKU_START : N := 0xff41.
Definition LOWERCASE_ZENKAKU_END : N := 0xff5a.
Definition UPPERCASE_ZENKAKU_START : N := 0xff21.
Definition UPPERCASE_ZENKAKU_END : N := 0xff3a.
(** constants.rs:14-18 *)
Definition ZENKAKU_NUMBERS : range := (0xFF10, 0xFF19).
Definition ZENKAKU_PUNCTUATION_1 : range := (0xFF01, 0xFF0F).
Definition ZENKAKU_PUNCTUATION_2 : range := (0xFF1A, 0xFF1F).
Definition ZENKAKU_PUNCTUATION_3 : range := (0xFF3B, 0xFF3F).
Definition ZENKAKU_PUNCTUATION_4 : range := (0xFF5B, 0xFF60).
(** constants.rs:19-21 *)
Definition ZENKAKU_UPPERCASE : range := (UPPERCASE_ZENKAKU_START, UPPERCASE_ZENKAKU_END).
Definition ZENKAKU_LOWERCASE : range := (LOWERCASE_ZENKAKU_START, LOWERCASE_ZENKAKU_END).
Definition ZENKAKU_SYMBOLS_CURRENCY : range := (0xFFE0, 0xFFEE).
(** constants.rs:22-27 *)
Definition KANA_PUNCTUATION : range := (0xFF61, 0xFF65).
Definition HANKAKU_KATAKANA : range := (0xFF66, 0xFF9F).
Definition COMMON_CJK : range := (0x4E00, 0x9FFF).
Definition RARE_CJK : range := (0x3400, 0x4DBF).
Definition LATIN_NUMBERS : range := (0x0030, 0x0039).
Definition MODERN_ENGLISH : range := (0x0000, 0x007f).
(** constants.rs:28-34 *)
Definition HEPBURN_MACRON_RANGES : list range :=
  [(0x0100, 0x0101); (0x0112, 0x0113); (0x012a, 0x012b); (0x014c, 0x014d); (0x016a, 0x016b)].
(** constants.rs:35-38 *)
Definition SMART_QUOTE_RANGES : list range := [(0x2018, 0x2019); (0x201C, 0x201D)].
(** constants.rs:47-56 *)
Definition JA_PUNCTUATION_RANGES : list range :=
  [CJK_SYMBOLS_PUNCTUATION; KANA_PUNCTUATION; KATAKANA_PUNCTUATION; ZENKAKU_PUNCTUATION_1;
   ZENKAKU_PUNCTUATION_2; ZENKAKU_PUNCTUATION_3; ZENKAKU_PUNCTUATION_4;
   ZENKAKU_SYMBOLS_CURRENCY].
(** constants.rs:58-64 *)
Definition KANA_RANGES : list range :=
  [HIRAGANA_CHARS; KATAKANA_CHARS; KANA_PUNCTUATION; HANKAKU_KATAKANA].
(** constants.rs:69-74 (lazy_static initialiser, evaluated eagerly here) *)
Definition JAPANESE_RANGES : list range :=
  [ZENKAKU_UPPERCASE; ZENKAKU_LOWERCASE; ZENKAKU_NUMBERS; COMMON_CJK; RARE_CJK]
  ++ KANA_RANGES ++ JA_PUNCTUATION_RANGES.
(** constants.rs:78-82 *)
Definition ROMAJI_RANGES : list range := [MODERN_ENGLISH] ++ HEPBURN_MACRON_RANGES.
(** constants.rs:83-87 *)
Definition EN_PUNCTUATION_RANGES : list range :=
  [(0x20, 0x2F); (0x3A, 0x3F); (0x5B, 0x60); (0x7B, 0x7E)] ++ SMART_QUOTE_RANGES.
(** constants.rs:91-98 *)
Definition UPPERCASE_START : N := 0x41.
Definition UPPERCASE_END : N := 0x5A.
Definition HIRAGANA_START : N := 0x3041.
Definition HIRAGANA_END : N := 0x3096.
Definition KATAKANA_START : N := 0x30A1.
Definition KATAKANA_END : N := 0x30FC.
Definition PROLONGED_SOUND_MARK : N := 0x30FC.
Definition KANA_SLASH_DOT : N := 0x30FB.
