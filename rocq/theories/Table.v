(** * The conversions with other tables (C101)

    The loops of Convert.v line by line, with the tree as a parameter [T].  With the trees of the code they
    are the functions of the model (C101). *)
From Verif Require Import Base Std Constants Chars Trees KanaTree RomajiTree Strings Convert.

Section Kana.
  Context (T : knode).
  (** to_kana.rs:20-48 *)
  Fixpoint to_kana_loop_in (fuel : nat) (E : std) (chars : str) (curr_pos : nat)
      (output : str) : res str :=
    match fuel with
    | O => NoFuel
    | S fuel' =>
      if Nat.eqb curr_pos (length chars) then Ok output                       (* 22 *)
      else
        sl <- slice_from chars curr_pos ;;
        let result := k_get T sl in                                        (* 23-29 *)
        if Nat.eqb (snd result) 0
           || match fst result with None => true | Some _ => false end then   (* 32-34 *)
          c <- index chars curr_pos ;;
          to_kana_loop_in fuel' E chars (curr_pos + 1) (output ++ [c])
        else
          seg <- slice chars curr_pos (curr_pos + snd result) ;;              (* 36-38 *)
          out <- unwrap (fst result) ;;
          if forallb (is_upper E) seg then
            k <- hiragana_to_katakana out ;;                                  (* 40 *)
            to_kana_loop_in fuel' E chars (curr_pos + snd result) (output ++ k)
          else
            to_kana_loop_in fuel' E chars (curr_pos + snd result) (output ++ out)
    end.
  (** to_kana.rs:12-50 *)
  Definition to_kana_in (E : std) (input : str) : res str :=
    to_kana_loop_in (S (length input)) E input 0 [].
End Kana.

Section Romaji.
  Context (T : rnode).
  (** utils/katakana_to_hiragana.rs:47-103 *)
  Fixpoint k2h_loop_in (E : std) (input : str) (is_destination_romaji : bool)
      (index : nat) (previous_kana : option char) (rest : str) (hira : str) : res str :=
    match rest with
    | [] => Ok hira
    | c :: rest' =>
      let go prev out := k2h_loop_in E input is_destination_romaji (S index) prev rest' out in
      if is_char_slash_dot c || is_char_initial_long_dash c index || is_kana_as_symbol c
      then go previous_kana (hira ++ [c])                                     (* 52-56 *)
      else match previous_kana, is_char_inner_long_dash c index with
      | Some pk, true =>                                                      (* 58-60 *)
        o <- r_find E T pk ;;
        match o with
        | None => go previous_kana (hira ++ [c])                              (* 62-65 *)
        | Some node =>
          let romaji_opt := last_char (rout node) in                          (* 67 *)
          im1 <- checked_sub index 1 ;;
          let long_o :=                                                       (* 69-70 *)
            match nth_error input im1 with
            | Some prev_char =>
              is_char_katakana prev_char
              && match romaji_opt with Some r => r =? ch "o" | None => false end
              && is_destination_romaji
            | None => false
            end in
          if long_o then go previous_kana (hira ++ [ch "お"])                 (* 71-72 *)
          else match romaji_opt with                                          (* 76-78 *)
               | Some r =>
                 match LONG_VOWELS r with
                 | Some hit => go previous_kana (hira ++ [hit])
                 | None => go previous_kana hira
                 end
               | None => go previous_kana hira
               end
        end
      | _, _ =>
        if negb (is_char_long_dash c) && is_char_katakana c then              (* 79-95 *)
          go (Some (hira_of_kata c)) (hira ++ [hira_of_kata c])
        else go None (hira ++ [c])                                            (* 96-99 *)
      end
    end.
  (** to_romaji.rs:18-48 *)
  Fixpoint to_romaji_loop_in (fuel : nat) (E : std) (o : options) (orig_chars chars : str)
      (curr_pos : nat) (output : str) : res str :=
    match fuel with
    | O => NoFuel
    | S fuel' =>
      if Nat.eqb curr_pos (length chars) then Ok output                       (* 21 *)
      else
        sl <- slice_from chars curr_pos ;;
        result <- r_get E T sl ;;                           (* 22 *)
        if Nat.eqb (snd result) 0 then                                        (* 24-26 *)
          c <- index chars curr_pos ;;
          to_romaji_loop_in fuel' E o orig_chars chars (curr_pos + 1) (output ++ [c])
        else
          seg <- slice orig_chars curr_pos (curr_pos + snd result) ;;         (* 29-31 *)
          let upper := if forallb is_char_katakana seg then upcase_katakana o else false in
          to_romaji_loop_in fuel' E o orig_chars chars (curr_pos + snd result)
            (output ++ (if upper then to_uppercase E (fst result) else fst result))
    end.
  (** to_romaji.rs:12-49 *)
  Definition to_romaji_in (E : std) (orig : str) (o : options) : res str :=
    kana <- k2h_loop_in E orig true 0 None orig [] ;;
    to_romaji_loop_in (S (length kana)) E o orig kana 0 [].
End Romaji.
