(** * options.rs, utils/*_to_*.rs, to_kana.rs, to_hiragana.rs, to_katakana.rs, to_romaji.rs *)
From Verif Require Import Base Std Constants Chars Trees KanaTree RomajiTree Strings.

(** options.rs:3-18; [Default] is all-false (derive on line 1). *)
Record options := {
  use_obsolete_kana : bool;
  pass_romaji : bool;
  upcase_katakana : bool;
  imemode : bool
}.
Definition default_options : options := Build_options false false false false.

(** utils/hiragana_to_katakana.rs:21-39 *)
Fixpoint hiragana_to_katakana (input : str) : res str :=
  match input with
  | [] => Ok []
  | c :: rest =>
    k <- (if is_char_long_dash c || is_char_slash_dot c then Ok c
          else if is_char_hiragana c then
            (* line 29: i32 addition; both constants and every char fit *)
            unwrap (from_u32 (c + (KATAKANA_START - HIRAGANA_START)))
          else Ok c) ;;
    r <- hiragana_to_katakana rest ;;
    Ok (k :: r)
  end.

(** utils/katakana_to_hiragana.rs:23-31 *)
Definition is_char_initial_long_dash (c : char) (index : nat) : bool :=
  is_char_long_dash c && Nat.eqb index 0.
Definition is_char_inner_long_dash (c : char) (index : nat) : bool :=
  is_char_long_dash c && negb (Nat.eqb index 0).
Definition is_kana_as_symbol (c : char) : bool := (ch "ヶ" =? c) || (ch "ヵ" =? c).

(** utils/katakana_to_hiragana.rs:33-41 (the hash map as its lookup function) *)
Definition LONG_VOWELS (c : char) : option char :=
  if c =? ch "a" then Some (ch "あ")
  else if c =? ch "i" then Some (ch "い")
  else if c =? ch "u" then Some (ch "う")
  else if c =? ch "e" then Some (ch "え")
  else if c =? ch "o" then Some (ch "う")
  else None.

(** utils/katakana_to_hiragana.rs:80-92; the shift is an [i32] subtraction,
    never negative because the character is katakana *)
Definition hira_of_kata (c : char) : char :=
  if c =? ch "ヷ" then ch "わ"
  else if c =? ch "ヸ" then ch "ゐ"
  else if c =? ch "ヹ" then ch "ゑ"
  else if c =? ch "ヺ" then ch "を"
  else match from_u32 (c - (KATAKANA_START - HIRAGANA_START)) with
       | Some d => d
       | None => c
       end.

(** [s.chars().last()] *)
Definition last_char (s : str) : option char := nth_error (rev s) 0.

(** utils/katakana_to_hiragana.rs:47-103.  [rest] are the characters still to
    be visited, [index] their position in [input]. *)
Fixpoint k2h_loop (E : std) (input : str) (is_destination_romaji : bool)
    (index : nat) (previous_kana : option char) (rest : str) (hira : str) : res str :=
  match rest with
  | [] => Ok hira
  | c :: rest' =>
    let go prev out := k2h_loop E input is_destination_romaji (S index) prev rest' out in
    if is_char_slash_dot c || is_char_initial_long_dash c index || is_kana_as_symbol c
    then go previous_kana (hira ++ [c])                                     (* 52-56 *)
    else match previous_kana, is_char_inner_long_dash c index with
    | Some pk, true =>                                                      (* 58-60 *)
      o <- r_find E TO_ROMAJI_NODE_TREE pk ;;
      match o with
      | None => go previous_kana (hira ++ [c])                              (* 62-65 *)
      | Some node =>
        let romaji_opt := last_char (rout node) in                          (* 67 *)
        im1 <- checked_sub index 1 ;;
        let long_o :=                                                       (* 69-70 *)
          match nth_error input im1 with
          | Some prev_char =>
            is_char_katakana prev_char
            && match romaji_opt with Some r => r =? ch "o" | None => false end
            && is_destination_romaji
          | None => false
          end in
        if long_o then go previous_kana (hira ++ [ch "お"])                 (* 71-72 *)
        else match romaji_opt with                                          (* 76-78 *)
             | Some r =>
               match LONG_VOWELS r with
               | Some hit => go previous_kana (hira ++ [hit])
               | None => go previous_kana hira
               end
             | None => go previous_kana hira
             end
      end
    | _, _ =>
      if negb (is_char_long_dash c) && is_char_katakana c then              (* 79-95 *)
        go (Some (hira_of_kata c)) (hira ++ [hira_of_kata c])
      else go None (hira ++ [c])                                            (* 96-99 *)
    end
  end.
Definition katakana_to_hiragana_with_opt (E : std) (input : str) (is_destination_romaji : bool)
  : res str := k2h_loop E input is_destination_romaji 0 None input [].

(** utils/katakana_to_hiragana.rs:43-45 *)
Definition katakana_to_hiragana (E : std) (input : str) : res str :=
  katakana_to_hiragana_with_opt E input false.

(** to_kana.rs:23-29, the tree selected by the options (forcing its static) *)
Definition kana_tree (o : options) : res knode :=
  if use_obsolete_kana o then obsolete_init
  else if imemode o then imemode_init
  else Ok TO_KANA_NODE_TREE.

(** to_kana.rs:20-48 *)
Fixpoint to_kana_loop (fuel : nat) (E : std) (o : options) (chars : str) (curr_pos : nat)
    (output : str) : res str :=
  match fuel with
  | O => NoFuel
  | S fuel' =>
    if Nat.eqb curr_pos (length chars) then Ok output                       (* 22 *)
    else
      tree <- kana_tree o ;;
      sl <- slice_from chars curr_pos ;;
      let result := k_get tree sl in                                        (* 23-29 *)
      if Nat.eqb (snd result) 0
         || match fst result with None => true | Some _ => false end then   (* 32-34 *)
        c <- index chars curr_pos ;;
        to_kana_loop fuel' E o chars (curr_pos + 1) (output ++ [c])
      else
        seg <- slice chars curr_pos (curr_pos + snd result) ;;              (* 36-38 *)
        out <- unwrap (fst result) ;;
        if forallb (is_upper E) seg then
          k <- hiragana_to_katakana out ;;                                  (* 40 *)
          to_kana_loop fuel' E o chars (curr_pos + snd result) (output ++ k)
        else
          to_kana_loop fuel' E o chars (curr_pos + snd result) (output ++ out)
  end.

(** to_kana.rs:14-49 *)
Definition to_kana_with_opt (E : std) (input : str) (o : options) : res str :=
  to_kana_loop (S (length input)) E o input 0 [].
(** to_kana.rs:9-11 *)
Definition to_kana (E : std) (input : str) : res str := to_kana_with_opt E input default_options.

(** utils/romaji_to_hiragana.rs:8-11 *)
Definition romaji_to_hiragana (E : std) (input : str) (o : options) : res str :=
  to_kana_with_opt E (to_lowercase E input) o.

(** to_hiragana.rs:15-35 *)
Definition to_hiragana_with_opt (E : std) (input : str) (o : options) : res str :=
  if pass_romaji o then katakana_to_hiragana E input
  else if is_mixed input then
    romaji <- katakana_to_hiragana E input ;;
    romaji_to_hiragana E romaji o
  else if is_romaji input
       || match option_map is_char_english_punctuation (nth_error input 0) with
          | Some b => b | None => false end then
    romaji_to_hiragana E input o
  else katakana_to_hiragana E input.
(** to_hiragana.rs:10-12 *)
Definition to_hiragana (E : std) (input : str) : res str :=
  to_hiragana_with_opt E input default_options.

(** to_katakana.rs:12-22 *)
Definition to_katakana_with_opt (E : std) (input : str) (o : options) : res str :=
  if pass_romaji o then hiragana_to_katakana input
  else if is_romaji input || is_mixed input then
    romaji <- romaji_to_hiragana E input o ;;
    hiragana_to_katakana romaji
  else hiragana_to_katakana input.
(** to_katakana.rs:8-10 *)
Definition to_katakana (E : std) (input : str) : res str :=
  to_katakana_with_opt E input default_options.

(** to_romaji.rs:18-48 *)
Fixpoint to_romaji_loop (fuel : nat) (E : std) (o : options) (orig_chars chars : str)
    (curr_pos : nat) (output : str) : res str :=
  match fuel with
  | O => NoFuel
  | S fuel' =>
    if Nat.eqb curr_pos (length chars) then Ok output                       (* 21 *)
    else
      sl <- slice_from chars curr_pos ;;
      result <- r_get E TO_ROMAJI_NODE_TREE sl ;;                           (* 22 *)
      if Nat.eqb (snd result) 0 then                                        (* 24-26 *)
        c <- index chars curr_pos ;;
        to_romaji_loop fuel' E o orig_chars chars (curr_pos + 1) (output ++ [c])
      else
        seg <- slice orig_chars curr_pos (curr_pos + snd result) ;;         (* 29-31 *)
        let upper := if forallb is_char_katakana seg then upcase_katakana o else false in
        to_romaji_loop fuel' E o orig_chars chars (curr_pos + snd result)
          (output ++ (if upper then to_uppercase E (fst result) else fst result))
  end.

(** to_romaji.rs:12-49 *)
Definition to_romaji_with_opt (E : std) (orig : str) (o : options) : res str :=
  kana <- katakana_to_hiragana_with_opt E orig true ;;
  to_romaji_loop (S (length kana)) E o orig kana 0 [].
(** to_romaji.rs:7-9 *)
Definition to_romaji (E : std) (input : str) : res str :=
  to_romaji_with_opt E input default_options.
