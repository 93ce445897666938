(** * tokenize.rs and trim_okurigana.rs *)
From Verif Require Import Base Std Chars Strings.

(** tokenize.rs:33-56 *)
Inductive token_type :=
| En | Ja | EnNum | JaNum | EnPunc | JaPunc | Kanji | Hiragana | Katakana | Space | Other.
(** tokenize.rs:29, [derive(PartialEq)] *)
Definition token_type_eqb (a b : token_type) : bool :=
  match a, b with
  | En, En | Ja, Ja | EnNum, EnNum | JaNum, JaNum | EnPunc, EnPunc | JaPunc, JaPunc
  | Kanji, Kanji | Hiragana, Hiragana | Katakana, Katakana | Space, Space | Other, Other => true
  | _, _ => false
  end.

(** tokenize.rs:58-91 *)
Definition get_type (input : char) (compact : bool) : token_type :=
  if compact then
    if input =? ch " " then En
    else if input =? 0x3000 then Ja
    else if is_char_japanese_number input || is_char_latin_number input
         || is_char_english_punctuation input || is_char_japanese_punctuation input then Other
    else if is_char_japanese input then Ja
    else if is_char_romaji input then En
    else Other
  else
    if input =? ch " " then Space
    else if input =? 0x3000 then Space
    else if is_char_japanese_number input then JaNum
    else if is_char_latin_number input then EnNum
    else if is_char_english_punctuation input then EnPunc
    else if is_char_japanese_punctuation input then JaPunc
    else if is_char_kanji input then Kanji
    else if is_char_hiragana input then Hiragana
    else if is_char_katakana input then Katakana
    else if is_char_japanese input then Ja
    else if is_char_romaji input then En
    else Other.

(** tokenize.rs:145-151 *)
Definition tokenize_detailed (input : str) (compact : bool) : list (token_type * str) :=
  group_by token_type_eqb (fun c => get_type c compact) input.
(** tokenize.rs:114-120 *)
Definition tokenize_with_opt (input : str) (compact : bool) : list str :=
  map snd (group_by token_type_eqb (fun c => get_type c compact) input).
(** tokenize.rs:105-107 *)
Definition tokenize (input : str) : list str := tokenize_with_opt input false.

(** trim_okurigana.rs:25-30 *)
Definition is_leading_without_initial_kana (input : str) (trim_from_start : bool) : res bool :=
  if is_empty input then Ok false
  else if trim_from_start then
    c <- unwrap (nth_error input 0) ;; Ok (negb (is_char_kana c))
  else Ok false.
(** trim_okurigana.rs:33-38 *)
Definition is_trailing_without_final_kana (input : str) (trim_from_start : bool) : res bool :=
  if is_empty input then Ok false
  else if negb trim_from_start then
    c <- unwrap (nth_error (rev input) 0) ;; Ok (negb (is_char_kana c))
  else Ok false.
(** trim_okurigana.rs:40-46 *)
Definition is_invalid_matcher (input : str) (match_kanji : option str) : bool :=
  match match_kanji with
  | Some m => forallb is_char_kanji m
  | None => is_kana input
  end.

(** trim_okurigana.rs:66-95.  The four conditions are evaluated in the order of
    the code. *)
Definition trim_okurigana_with_opt (input : str) (trim_from_start : bool)
    (match_kanji : option str) : res str :=
  if negb (is_japanese input) then Ok input else
  lead <- is_leading_without_initial_kana input trim_from_start ;;
  if lead then Ok input else
  trail <- is_trailing_without_final_kana input trim_from_start ;;
  if trail then Ok input else
  if is_invalid_matcher input match_kanji then Ok input else
  let tokens := match match_kanji with Some m => tokenize m | None => tokenize input end in
  match tokens with
  | [] => Ok input                                                          (* 86-88 *)
  | _ =>
    if trim_from_start then
      t0 <- index tokens 0 ;; Ok (trim_start_matches input t0)              (* 91 *)
    else
      tl <- unwrap (nth_error (rev tokens) 0) ;; Ok (trim_end_matches input tl)  (* 93 *)
  end.
(** trim_okurigana.rs:21-23 *)
Definition trim_okurigana (input : str) : res str := trim_okurigana_with_opt input false None.
