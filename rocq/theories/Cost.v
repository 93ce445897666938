(** * The work done by the conversions (C90)

    The loops of Convert.v, KanaTree.v and RomajiTree.v once more, line by line, with counters.
    [lookups] counts the calls of [find_transition_node] (to_kana_node_tree.rs:27,
    to_romaji_node_tree.rs:22), [passed] the characters that
    [input.chars().nth(index - 1)] reads from the start of the text
    (utils/katakana_to_hiragana.rs:69): [index] of them, since strings are not indexed by
    characters.  CostProofs.v shows that without the counters these are the functions of the model. *)
From Verif Require Import Base Std Constants Chars Trees KanaTree RomajiTree Strings Convert.

(** to_kana_node_tree.rs:8-25 *)
Fixpoint k_walk_count (n : knode) (chars : str) (i lookups : nat) : knode * nat * nat :=
  match chars with
  | [] => (n, i, lookups)
  | c :: rest =>
    match k_find n (ascii_lower c) with
    | Some m => k_walk_count m rest (S i) (S lookups)
    | None => (n, i, S lookups)
    end
  end.
Definition k_get_count (n : knode) (chars : str) (lookups : nat) : option str * nat * nat :=
  match k_walk_count n chars 0 lookups with
  | (m, i, l) =>
    match kout m with
    | Some _ => (kout m, i, l)
    | None => (None, 0%nat, l)
    end
  end.

(** to_kana.rs:20-48 *)
Fixpoint to_kana_loop_count (fuel : nat) (E : std) (o : options) (chars : str) (curr_pos : nat)
    (output : str) (lookups : nat) : res (str * nat) :=
  match fuel with
  | O => NoFuel
  | S fuel' =>
    if Nat.eqb curr_pos (length chars) then Ok (output, lookups)
    else
      tree <- kana_tree o ;;
      sl <- slice_from chars curr_pos ;;
      match k_get_count tree sl lookups with
      | (result, i, l) =>
        if Nat.eqb i 0 || match result with None => true | Some _ => false end then
          c <- index chars curr_pos ;;
          to_kana_loop_count fuel' E o chars (curr_pos + 1) (output ++ [c]) l
        else
          seg <- slice chars curr_pos (curr_pos + i) ;;
          out <- unwrap result ;;
          if forallb (is_upper E) seg then
            k <- hiragana_to_katakana out ;;
            to_kana_loop_count fuel' E o chars (curr_pos + i) (output ++ k) l
          else
            to_kana_loop_count fuel' E o chars (curr_pos + i) (output ++ out) l
      end
  end.
Definition to_kana_count (E : std) (input : str) (o : options) : res (str * nat) :=
  to_kana_loop_count (S (length input)) E o input 0 [] 0.

(** utils/katakana_to_hiragana.rs:47-103 *)
Fixpoint k2h_loop_count (E : std) (input : str) (is_destination_romaji : bool)
    (index : nat) (previous_kana : option char) (rest : str) (hira : str) (lookups passed : nat)
    : res (str * nat * nat) :=
  match rest with
  | [] => Ok (hira, lookups, passed)
  | c :: rest' =>
    let go prev out l p := k2h_loop_count E input is_destination_romaji (S index) prev rest' out l p in
    if is_char_slash_dot c || is_char_initial_long_dash c index || is_kana_as_symbol c
    then go previous_kana (hira ++ [c]) lookups passed
    else match previous_kana, is_char_inner_long_dash c index with
    | Some pk, true =>
      o <- r_find E TO_ROMAJI_NODE_TREE pk ;;
      match o with
      | None => go previous_kana (hira ++ [c]) (S lookups) passed
      | Some node =>
        let romaji_opt := last_char (rout node) in
        im1 <- checked_sub index 1 ;;
        let long_o :=
          match nth_error input im1 with
          | Some prev_char =>
            is_char_katakana prev_char
            && match romaji_opt with Some r => r =? ch "o" | None => false end
            && is_destination_romaji
          | None => false
          end in
        let passed' := (passed + S im1)%nat in
        if long_o then go previous_kana (hira ++ [ch "お"]) (S lookups) passed'
        else match romaji_opt with
             | Some r =>
               match LONG_VOWELS r with
               | Some hit => go previous_kana (hira ++ [hit]) (S lookups) passed'
               | None => go previous_kana hira (S lookups) passed'
               end
             | None => go previous_kana hira (S lookups) passed'
             end
      end
    | _, _ =>
      if negb (is_char_long_dash c) && is_char_katakana c then
        go (Some (hira_of_kata c)) (hira ++ [hira_of_kata c]) lookups passed
      else go None (hira ++ [c]) lookups passed
    end
  end.
Definition k2h_count (E : std) (input : str) (is_destination_romaji : bool) : res (str * nat * nat) :=
  k2h_loop_count E input is_destination_romaji 0 None input [] 0 0.

(** to_romaji_node_tree.rs:8-20 *)
Fixpoint r_walk_count (E : std) (n : rnode) (chars : str) (i lookups : nat) : res (rnode * nat * nat) :=
  match chars with
  | [] => Ok (n, i, lookups)
  | c :: rest =>
    o <- r_find E n c ;;
    match o with
    | Some m => r_walk_count E m rest (S i) (S lookups)
    | None => Ok (n, i, S lookups)
    end
  end.

(** to_romaji.rs:18-48 *)
Fixpoint to_romaji_loop_count (fuel : nat) (E : std) (o : options) (orig_chars chars : str)
    (curr_pos : nat) (output : str) (lookups : nat) : res (str * nat) :=
  match fuel with
  | O => NoFuel
  | S fuel' =>
    if Nat.eqb curr_pos (length chars) then Ok (output, lookups)
    else
      sl <- slice_from chars curr_pos ;;
      w <- r_walk_count E TO_ROMAJI_NODE_TREE sl 0 lookups ;;
      match w with
      | (m, i, l) =>
        if Nat.eqb i 0 then
          c <- index chars curr_pos ;;
          to_romaji_loop_count fuel' E o orig_chars chars (curr_pos + 1) (output ++ [c]) l
        else
          seg <- slice orig_chars curr_pos (curr_pos + i) ;;
          let upper := if forallb is_char_katakana seg then upcase_katakana o else false in
          to_romaji_loop_count fuel' E o orig_chars chars (curr_pos + i)
            (output ++ (if upper then to_uppercase E (rout m) else rout m)) l
      end
  end.
(** to_romaji.rs:12-49 *)
Definition to_romaji_count (E : std) (orig : str) (o : options) : res (str * nat * nat) :=
  k <- k2h_count E orig true ;;
  match k with
  | (kana, l, p) =>
    r <- to_romaji_loop_count (S (length kana)) E o orig kana 0 [] l ;;
    Ok (fst r, snd r, p)
  end.

(** to_hiragana.rs:15-35 *)
Definition to_hiragana_count (E : std) (input : str) (o : options) : res (str * nat * nat) :=
  if pass_romaji o then k2h_count E input false
  else if is_mixed input then
    k <- k2h_count E input false ;;
    match k with
    | (romaji, l, p) =>
      r <- to_kana_count E (to_lowercase E romaji) o ;;
      Ok (fst r, (l + snd r)%nat, p)
    end
  else if is_romaji input
       || match option_map is_char_english_punctuation (nth_error input 0) with
          | Some b => b | None => false end then
    r <- to_kana_count E (to_lowercase E input) o ;; Ok (fst r, snd r, 0%nat)
  else k2h_count E input false.

(** to_katakana.rs:12-22 *)
Definition to_katakana_count (E : std) (input : str) (o : options) : res (str * nat) :=
  if pass_romaji o then r <- hiragana_to_katakana input ;; Ok (r, 0%nat)
  else if is_romaji input || is_mixed input then
    k <- to_kana_count E (to_lowercase E input) o ;;
    r <- hiragana_to_katakana (fst k) ;;
    Ok (r, snd k)
  else r <- hiragana_to_katakana input ;; Ok (r, 0%nat).
