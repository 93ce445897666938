(** * Growing buffers (C97)

    The loops of Convert.v once more, line by line, writing into buffers with a capacity.  A buffer is its
    contents, its capacity and the number of times it had to be made larger.  [grow_chars] and
    [grow_bytes] are what the standard library makes of a capacity that is not enough for a given size, for
    buffers of characters and of bytes ([RawVec::grow_amortized]).  AllocProofs.v shows that the contents are what the model computes.
    The vectors that hold the characters of the input, the temporary strings of [to_uppercase] and [to_lowercase]
    and the tokens are not looked at. *)
From Verif Require Import Base Std Constants Chars Trees KanaTree RomajiTree Strings Convert BytesSpec.

Record buffer := { contents : str; capacity : nat; grown : nat }.
Definition with_capacity (n : nat) : buffer := Build_buffer [] n 0.

Section Alloc.
  Context (grow_chars grow_bytes : nat -> nat -> nat).

  (** [Vec::push], [String::push], [String::push_str]; [size] is the size of a text in the buffer:
      in characters for [Vec<char>], in bytes for [String] *)
  Definition extend (grow : nat -> nat -> nat) (size : str -> nat) (b : buffer) (s : str) : buffer :=
    let need := (size (contents b) + size s)%nat in
    if Nat.leb need (capacity b) then Build_buffer (contents b ++ s) (capacity b) (grown b)
    else Build_buffer (contents b ++ s) (grow (capacity b) need) (S (grown b)).
  Definition push_char (b : buffer) (c : char) : buffer := extend grow_chars (@length _) b [c].
  Definition push_str (b : buffer) (s : str) : buffer := extend grow_bytes bytes b s.

  (** [into_iter().collect::<String>()]: room for one byte per character is made first *)
  Definition collect_string (s : str) : buffer :=
    fold_left (fun b c => push_str b [c]) s (with_capacity (match s with [] => 0%nat | _ => grow_bytes 0 (length s) end)).

  (** utils/hiragana_to_katakana.rs:21-39, up to the [collect] *)
  Fixpoint h2k_loop_alloc (input : str) (kata : buffer) : res buffer :=
    match input with
    | [] => Ok kata
    | c :: rest =>
      k <- (if is_char_long_dash c || is_char_slash_dot c then Ok c
            else if is_char_hiragana c then
              unwrap (from_u32 (c + (KATAKANA_START - HIRAGANA_START)))
            else Ok c) ;;
      h2k_loop_alloc rest (push_char kata k)
    end.
  Definition hiragana_to_katakana_alloc (input : str) : res (buffer * buffer) :=
    kata <- h2k_loop_alloc input (with_capacity 0) ;;
    Ok (kata, collect_string (contents kata)).

  (** utils/katakana_to_hiragana.rs:47-103 *)
  Fixpoint k2h_loop_alloc (E : std) (input : str) (is_destination_romaji : bool)
      (index : nat) (previous_kana : option char) (rest : str) (hira : buffer) : res buffer :=
    match rest with
    | [] => Ok hira
    | c :: rest' =>
      let go prev out := k2h_loop_alloc E input is_destination_romaji (S index) prev rest' out in
      if is_char_slash_dot c || is_char_initial_long_dash c index || is_kana_as_symbol c
      then go previous_kana (push_char hira c)
      else match previous_kana, is_char_inner_long_dash c index with
      | Some pk, true =>
        o <- r_find E TO_ROMAJI_NODE_TREE pk ;;
        match o with
        | None => go previous_kana (push_char hira c)
        | Some node =>
          let romaji_opt := last_char (rout node) in
          im1 <- checked_sub index 1 ;;
          let long_o :=
            match nth_error input im1 with
            | Some prev_char =>
              is_char_katakana prev_char
              && match romaji_opt with Some r => r =? ch "o" | None => false end
              && is_destination_romaji
            | None => false
            end in
          if long_o then go previous_kana (push_char hira (ch "お"))
          else match romaji_opt with
               | Some r =>
                 match LONG_VOWELS r with
                 | Some hit => go previous_kana (push_char hira hit)
                 | None => go previous_kana hira
                 end
               | None => go previous_kana hira
               end
        end
      | _, _ =>
        if negb (is_char_long_dash c) && is_char_katakana c then
          go (Some (hira_of_kata c)) (push_char hira (hira_of_kata c))
        else go None (push_char hira c)
      end
    end.
  Definition katakana_to_hiragana_alloc (E : std) (input : str) (is_destination_romaji : bool) : res (buffer * buffer) :=
    hira <- k2h_loop_alloc E input is_destination_romaji 0 None input (with_capacity (length input)) ;;
    Ok (hira, collect_string (contents hira)).

  (** to_kana.rs:14-49 *)
  Fixpoint to_kana_loop_alloc (fuel : nat) (E : std) (o : options) (chars : str) (curr_pos : nat)
      (output : buffer) : res buffer :=
    match fuel with
    | O => NoFuel
    | S fuel' =>
      if Nat.eqb curr_pos (length chars) then Ok output
      else
        tree <- kana_tree o ;;
        sl <- slice_from chars curr_pos ;;
        let result := k_get tree sl in
        if Nat.eqb (snd result) 0
           || match fst result with None => true | Some _ => false end then
          c <- index chars curr_pos ;;
          to_kana_loop_alloc fuel' E o chars (curr_pos + 1) (push_str output [c])
        else
          seg <- slice chars curr_pos (curr_pos + snd result) ;;
          out <- unwrap (fst result) ;;
          if forallb (is_upper E) seg then
            k <- hiragana_to_katakana out ;;
            to_kana_loop_alloc fuel' E o chars (curr_pos + snd result) (push_str output k)
          else
            to_kana_loop_alloc fuel' E o chars (curr_pos + snd result) (push_str output out)
    end.
  Definition to_kana_alloc (E : std) (input : str) (o : options) : res buffer :=
    to_kana_loop_alloc (S (length input)) E o input 0 (with_capacity (bytes input)).

  (** to_romaji.rs:12-49 *)
  Fixpoint to_romaji_loop_alloc (fuel : nat) (E : std) (o : options) (orig_chars chars : str)
      (curr_pos : nat) (output : buffer) : res buffer :=
    match fuel with
    | O => NoFuel
    | S fuel' =>
      if Nat.eqb curr_pos (length chars) then Ok output
      else
        sl <- slice_from chars curr_pos ;;
        result <- r_get E TO_ROMAJI_NODE_TREE sl ;;
        if Nat.eqb (snd result) 0 then
          c <- index chars curr_pos ;;
          to_romaji_loop_alloc fuel' E o orig_chars chars (curr_pos + 1) (push_str output [c])
        else
          seg <- slice orig_chars curr_pos (curr_pos + snd result) ;;
          let upper := if forallb is_char_katakana seg then upcase_katakana o else false in
          to_romaji_loop_alloc fuel' E o orig_chars chars (curr_pos + snd result)
            (push_str output (if upper then to_uppercase E (fst result) else fst result))
    end.
  Definition to_romaji_alloc (E : std) (orig : str) (o : options) : res buffer :=
    kana <- katakana_to_hiragana_alloc E orig true ;;
    to_romaji_loop_alloc (S (length (contents (snd kana)))) E o orig (contents (snd kana)) 0 (with_capacity (bytes orig)).
End Alloc.

(** [RawVec::grow_amortized] (alloc/src/raw_vec.rs, Rust 1.45 to 1.82): at least twice the capacity; at least 8 bytes or
    4 elements of 4 bytes *)
Definition amortized (least cap need : nat) : nat := Nat.max least (Nat.max (2 * cap) need).
