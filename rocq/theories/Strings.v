(** * is_*.rs: predicates on strings *)
From Verif Require Import Base Chars.

Definition is_empty (s : str) : bool := match s with [] => true | _ => false end.

(** is_hiragana.rs:4-9 *)
Definition is_hiragana (input : str) : bool :=
  if is_empty input then false else forallb is_char_hiragana input.
(** is_katakana.rs:4-9 *)
Definition is_katakana (input : str) : bool :=
  if is_empty input then false else forallb is_char_katakana input.
(** is_kana.rs:4-9 *)
Definition is_kana (input : str) : bool :=
  if is_empty input then false else forallb is_char_kana input.
(** is_kanji.rs:5-10 *)
Definition is_kanji (input : str) : bool :=
  if is_empty input then false else forallb is_char_kanji input.
(** is_kanji.rs:14-19 *)
Definition contains_kanji (input : str) : bool :=
  if is_empty input then false else existsb is_char_kanji input.
(** is_japanese.rs:7-12 *)
Definition is_japanese (input : str) : bool :=
  if is_empty input then false else forallb is_char_japanese input.
(** is_romaji.rs:7-12 *)
Definition is_romaji (input : str) : bool :=
  if is_empty input then false else forallb is_char_romaji input.

(** A compiled regex is known to the crate only through [Regex::is_match]. *)
Definition regex := str -> bool.
(** is_japanese.rs:16-29 *)
Definition is_japanese_with_whitelist (input : str) (allowed : option regex) : bool :=
  if is_empty input then false else
  forallb (fun c =>
    let is_jap := is_char_japanese c in
    if negb is_jap then
      match allowed with Some is_match => is_match input | None => is_jap end
    else is_jap) input.
(** is_romaji.rs:17-30 *)
Definition is_romaji_with_whitelist (input : str) (allowed : option regex) : bool :=
  if is_empty input then false else
  forallb (fun c =>
    let is_jap := is_char_romaji c in
    if negb is_jap then
      match allowed with Some is_match => is_match input | None => is_jap end
    else is_jap) input.

(** is_mixed.rs:15-23 *)
Definition is_mixed_pass_kanji (input : str) (pass_kanji : bool) : bool :=
  let has_kanji := if negb pass_kanji then existsb is_char_kanji input else false in
  (existsb is_char_hiragana input || existsb is_char_katakana input)
  && existsb is_char_romaji input
  && negb has_kanji.
(** is_mixed.rs:9-11 *)
Definition is_mixed (input : str) : bool := is_mixed_pass_kanji input true.

(** traits.rs:310-367: the [IsJapaneseStr] methods forward to these functions. *)
