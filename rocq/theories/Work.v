(** * The predicates, the tokenizer and trimming again, counting the range tests and the runs of the regex

    [W A]: a value, the number of calls of [is_char_in_range] (utils/is_char_in_range.rs:10-12) and the number of calls
    of [Regex::is_match].  [&&], [||], [any], [all] and the arms of a [match] stop as soon as they can. *)
From Verif Require Import Base Std Constants Chars Strings Tokenize Convert.

Record W (A : Type) := Counted { value : A; tests : nat; runs : nat }.
Arguments Counted {A} value tests runs.
Arguments value {A} w.
Arguments tests {A} w.
Arguments runs {A} w.
Definition ret {A} (a : A) : W A := Counted a 0 0.
Definition andthen {A B} (x : W A) (f : A -> W B) : W B :=
  let y := f (value x) in Counted (value y) (tests x + tests y) (runs x + runs y).
Notation "x <~ e ;; k" := (andthen e (fun x => k)) (at level 61, e at next level, right associativity).
Definition or_w (x y : W bool) : W bool := b <~ x ;; if b then ret true else y.
Definition and_w (x y : W bool) : W bool := b <~ x ;; if b then y else ret false.
Definition not_w (x : W bool) : W bool := b <~ x ;; ret (negb b).
(** [Iterator::any], [Iterator::all] *)
Fixpoint any_w {A} (p : A -> W bool) (l : list A) : W bool :=
  match l with [] => ret false | x :: l' => b <~ p x ;; if b then ret true else any_w p l' end.
Fixpoint all_w {A} (p : A -> W bool) (l : list A) : W bool :=
  match l with [] => ret true | x :: l' => b <~ p x ;; if b then all_w p l' else ret false end.

(** utils/is_char_in_range.rs:10-12 *)
Definition is_char_in_range_w (c : char) (start stop : N) : W bool := Counted (is_char_in_range c start stop) 1 0.
Definition in_ranges_w (c : char) (rs : list range) : W bool := any_w (fun el => is_char_in_range_w c (fst el) (snd el)) rs.
(** utils/is_char_hiragana.rs:6-11 *)
Definition is_char_hiragana_w (c : char) : W bool :=
  if is_char_long_dash c then ret true else is_char_in_range_w c HIRAGANA_START HIRAGANA_END.
(** utils/is_char_katakana.rs:6-8 *)
Definition is_char_katakana_w (c : char) : W bool := is_char_in_range_w c KATAKANA_START KATAKANA_END.
(** utils/is_char_kana.rs:6-8 *)
Definition is_char_kana_w (c : char) : W bool := or_w (is_char_hiragana_w c) (is_char_katakana_w c).
(** utils/is_char_kanji.rs:7-9 *)
Definition is_char_kanji_w (c : char) : W bool := is_char_in_range_w c KANJI_START KANJI_END.
(** utils/is_char_japanese.rs:6-10 *)
Definition is_char_japanese_w (c : char) : W bool := in_ranges_w c JAPANESE_RANGES.
(** utils/is_char_japanese_number.rs:6-8 *)
Definition is_char_japanese_number_w (c : char) : W bool := is_char_in_range_w c (fst ZENKAKU_NUMBERS) (snd ZENKAKU_NUMBERS).
(** utils/is_char_japanese_punctuation.rs:6-10 *)
Definition is_char_japanese_punctuation_w (c : char) : W bool := in_ranges_w c JA_PUNCTUATION_RANGES.
(** utils/is_char_english_punctuation.rs:7-11 *)
Definition is_char_english_punctuation_w (c : char) : W bool := in_ranges_w c EN_PUNCTUATION_RANGES.
(** utils/is_char_latin_number.rs:6-8 *)
Definition is_char_latin_number_w (c : char) : W bool := is_char_in_range_w c (fst LATIN_NUMBERS) (snd LATIN_NUMBERS).
(** utils/is_char_romaji.rs:5-9 *)
Definition is_char_romaji_w (c : char) : W bool := in_ranges_w c ROMAJI_RANGES.

(** is_hiragana.rs:4-9, is_katakana.rs:4-9, is_kana.rs:4-9, is_kanji.rs:5-10, is_japanese.rs:7-12, is_romaji.rs:7-12:
    [if input.is_empty() { return false; } input.chars().all(..)] *)
Definition nonempty_all_w (p : char -> W bool) (input : str) : W bool := if is_empty input then ret false else all_w p input.
Definition is_hiragana_w : str -> W bool := nonempty_all_w is_char_hiragana_w.
Definition is_katakana_w : str -> W bool := nonempty_all_w is_char_katakana_w.
Definition is_kana_w : str -> W bool := nonempty_all_w is_char_kana_w.
Definition is_kanji_w : str -> W bool := nonempty_all_w is_char_kanji_w.
Definition is_japanese_w : str -> W bool := nonempty_all_w is_char_japanese_w.
Definition is_romaji_w : str -> W bool := nonempty_all_w is_char_romaji_w.
(** is_kanji.rs:14-19 *)
Definition contains_kanji_w (input : str) : W bool := if is_empty input then ret false else any_w is_char_kanji_w input.

(** is_japanese.rs:16-29, is_romaji.rs:17-30 *)
Definition run_w (r : regex) (input : str) : W bool := Counted (r input) 0 1.
Definition whitelist_w (p : char -> W bool) (input : str) (allowed : option regex) : W bool :=
  nonempty_all_w (fun c =>
    is_jap <~ p c ;;
    if negb is_jap then match allowed with Some r => run_w r input | None => ret is_jap end else ret is_jap) input.
Definition is_japanese_with_whitelist_w : str -> option regex -> W bool := whitelist_w is_char_japanese_w.
Definition is_romaji_with_whitelist_w : str -> option regex -> W bool := whitelist_w is_char_romaji_w.

(** is_mixed.rs:15-23 *)
Definition is_mixed_pass_kanji_w (input : str) (pass_kanji : bool) : W bool :=
  has_kanji <~ (if negb pass_kanji then any_w is_char_kanji_w input else ret false) ;;
  and_w (and_w (or_w (any_w is_char_hiragana_w input) (any_w is_char_katakana_w input)) (any_w is_char_romaji_w input))
    (ret (negb has_kanji)).
(** is_mixed.rs:9-11 *)
Definition is_mixed_w (input : str) : W bool := is_mixed_pass_kanji_w input true.

(** tokenize.rs:58-91 *)
Fixpoint arms_w {A} (arms : list (W bool * A)) (otherwise : A) : W A :=
  match arms with [] => ret otherwise | (g, a) :: arms' => b <~ g ;; if b then ret a else arms_w arms' otherwise end.
Definition get_type_w (input : char) (compact : bool) : W token_type :=
  if compact then
    arms_w [(ret (input =? ch " "), En); (ret (input =? 0x3000), Ja);
            (or_w (or_w (or_w (is_char_japanese_number_w input) (is_char_latin_number_w input))
               (is_char_english_punctuation_w input)) (is_char_japanese_punctuation_w input), Other);
            (is_char_japanese_w input, Ja); (is_char_romaji_w input, En)] Other
  else
    arms_w [(ret (input =? ch " "), Space); (ret (input =? 0x3000), Space);
            (is_char_japanese_number_w input, JaNum); (is_char_latin_number_w input, EnNum);
            (is_char_english_punctuation_w input, EnPunc); (is_char_japanese_punctuation_w input, JaPunc);
            (is_char_kanji_w input, Kanji); (is_char_hiragana_w input, Hiragana); (is_char_katakana_w input, Katakana);
            (is_char_japanese_w input, Ja); (is_char_romaji_w input, En)] Other.
(** [Itertools::group_by] asks for the key of each element once, in order *)
Fixpoint keys_w {A K} (key : A -> W K) (l : list A) : W (list (K * A)) :=
  match l with [] => ret [] | x :: l' => k <~ key x ;; r <~ keys_w key l' ;; ret ((k, x) :: r) end.
(** tokenize.rs:145-151 *)
Definition tokenize_detailed_w (input : str) (compact : bool) : W (list (token_type * str)) :=
  l <~ keys_w (fun c => get_type_w c compact) input ;;
  ret (map (fun g => (fst g, map snd (snd g))) (group_by token_type_eqb fst l)).
(** tokenize.rs:114-120 *)
Definition tokenize_with_opt_w (input : str) (compact : bool) : W (list str) :=
  l <~ keys_w (fun c => get_type_w c compact) input ;;
  ret (map (fun g => map snd (snd g)) (group_by token_type_eqb fst l)).

(** trim_okurigana.rs:25-38; [first] is the character looked at *)
Definition without_kana_w (wanted : bool) (input : str) (first : option char) : W (res bool) :=
  if is_empty input then ret (Ok false)
  else if wanted then
    match first with Some c => b <~ is_char_kana_w c ;; ret (Ok (negb b)) | None => ret Panic end
  else ret (Ok false).
(** trim_okurigana.rs:40-46 *)
Definition is_invalid_matcher_w (input : str) (match_kanji : option str) : W bool :=
  match match_kanji with Some m => all_w is_char_kanji_w m | None => is_kana_w input end.
(** trim_okurigana.rs:66-95 *)
Definition trim_okurigana_with_opt_w (input : str) (trim_from_start : bool) (match_kanji : option str) : W (res str) :=
  ja <~ is_japanese_w input ;;
  if negb ja then ret (Ok input) else
  lead <~ without_kana_w trim_from_start input (nth_error input 0) ;;
  match lead with
  | Ok true => ret (Ok input)
  | Ok false =>
    trail <~ without_kana_w (negb trim_from_start) input (nth_error (rev input) 0) ;;
    match trail with
    | Ok true => ret (Ok input)
    | Ok false =>
      bad <~ is_invalid_matcher_w input match_kanji ;;
      if bad then ret (Ok input) else
      tokens <~ tokenize_with_opt_w (match match_kanji with Some m => m | None => input end) false ;;
      ret (match tokens with
        | [] => Ok input
        | _ =>
          if trim_from_start then
            bind (index tokens 0) (fun t0 => Ok (trim_start_matches input t0))
          else bind (unwrap (nth_error (rev tokens) 0)) (fun tl => Ok (trim_end_matches input tl))
        end)
    | Panic => ret Panic | NoFuel => ret NoFuel
    end
  | Panic => ret Panic | NoFuel => ret NoFuel
  end.

(** to_katakana.rs:12-22: the tests before the conversion, and whether it reads the romaji *)
Definition katakana_branch_w (input : str) (o : options) : W bool :=
  if pass_romaji o then ret false else or_w (is_romaji_w input) (is_mixed_w input).
(** to_hiragana.rs:15-35 *)
Definition hiragana_branch_w (input : str) (o : options) : W bool :=
  if pass_romaji o then ret false else
  or_w (is_mixed_w input) (or_w (is_romaji_w input)
    (match nth_error input 0 with Some c => is_char_english_punctuation_w c | None => ret false end)).
