(** * The conversions with machine integers: [usize] positions and [i32] code points

    The same functions as in KanaTree.v, RomajiTree.v and Convert.v, where positions were natural numbers and code points
    were shifted without bounds.  Here every addition and subtraction of the code is one of the machine: with overflow checks
    (a debug build) it panics outside the range of its type, without (a release build) it wraps.  [um] is [usize::MAX]. *)
From Coq Require Import ZArith.
From Verif Require Import Base Std Constants Chars Trees KanaTree RomajiTree Strings Tokenize Convert.

Inductive build := Debug | Release.

(** [x + y] and [x - y] on [usize] *)
Definition usize_add (b : build) (um x y : N) : res N :=
  if x + y <=? um then Ok (x + y) else match b with Debug => Panic | Release => Ok ((x + y) mod (um + 1)) end.
Definition usize_sub (b : build) (um x y : N) : res N :=
  if y <=? x then Ok (x - y) else match b with Debug => Panic | Release => Ok ((x + (um + 1) - y) mod (um + 1)) end.
(** [x as i32] of a [u32] or [char], [z as u32] of an [i32] *)
Definition as_i32 (x : N) : Z := if x <? 0x80000000 then Z.of_N x else (Z.of_N x - 0x100000000)%Z.
Definition as_u32 (z : Z) : N := Z.to_N (z mod 0x100000000).
(** a sum or difference [z] of two [i32] *)
Definition i32 (b : build) (z : Z) : res Z :=
  if ((-0x80000000 <=? z) && (z <? 0x80000000))%Z then Ok z
  else match b with Debug => Panic | Release => Ok ((z + 0x80000000) mod 0x100000000 - 0x80000000)%Z end.
Definition i32_add (b : build) (x y : Z) : res Z := i32 b (x + y).
Definition i32_sub (b : build) (x y : Z) : res Z := i32 b (x - y).

(** utils/hiragana_to_katakana.rs:21-39 *)
Fixpoint hiragana_to_katakana_m (b : build) (input : str) : res str :=
  match input with
  | [] => Ok []
  | c :: rest =>
    k <- (if is_char_long_dash c || is_char_slash_dot c then Ok c
          else if is_char_hiragana c then
            d <- i32_sub b (as_i32 KATAKANA_START) (as_i32 HIRAGANA_START) ;;
            code <- i32_add b (as_i32 c) d ;;                               (* 29 *)
            unwrap (from_u32 (as_u32 code))                                 (* 31 *)
          else Ok c) ;;
    r <- hiragana_to_katakana_m b rest ;;
    Ok (k :: r)
  end.

(** utils/katakana_to_hiragana.rs:80-92 *)
Definition hira_of_kata_m (b : build) (c : char) : res char :=
  if c =? ch "ヷ" then Ok (ch "わ")
  else if c =? ch "ヸ" then Ok (ch "ゐ")
  else if c =? ch "ヹ" then Ok (ch "ゑ")
  else if c =? ch "ヺ" then Ok (ch "を")
  else
    d <- i32_sub b (as_i32 HIRAGANA_START) (as_i32 KATAKANA_START) ;;
    code <- i32_add b (as_i32 c) d ;;                                       (* 88 *)
    Ok (match from_u32 (as_u32 code) with Some d => d | None => c end).     (* 90 *)

(** utils/katakana_to_hiragana.rs:23-31 *)
Definition is_char_initial_long_dash_m (c : char) (index : N) : bool := is_char_long_dash c && (index =? 0).
Definition is_char_inner_long_dash_m (c : char) (index : N) : bool := is_char_long_dash c && negb (index =? 0).

(** utils/katakana_to_hiragana.rs:47-103.  [enumerate] counts on before it hands out the index. *)
Fixpoint k2h_loop_m (b : build) (um : N) (E : std) (input : str) (is_destination_romaji : bool)
    (index : N) (previous_kana : option char) (rest : str) (hira : str) : res str :=
  match rest with
  | [] => Ok hira
  | c :: rest' =>
    next <- usize_add b um index 1 ;;
    let go prev out := k2h_loop_m b um E input is_destination_romaji next prev rest' out in
    if is_char_slash_dot c || is_char_initial_long_dash_m c index || is_kana_as_symbol c
    then go previous_kana (hira ++ [c])                                     (* 52-56 *)
    else match previous_kana, is_char_inner_long_dash_m c index with
    | Some pk, true =>                                                      (* 58-60 *)
      o <- r_find E TO_ROMAJI_NODE_TREE pk ;;
      match o with
      | None => go previous_kana (hira ++ [c])                              (* 62-65 *)
      | Some node =>
        let romaji_opt := last_char (rout node) in                          (* 67 *)
        im1 <- usize_sub b um index 1 ;;                                    (* 69 *)
        let long_o :=
          match nth_error input (N.to_nat im1) with
          | Some prev_char =>
            is_char_katakana prev_char
            && match romaji_opt with Some r => r =? ch "o" | None => false end
            && is_destination_romaji
          | None => false
          end in
        if long_o then go previous_kana (hira ++ [ch "お"])                 (* 71-72 *)
        else match romaji_opt with                                          (* 76-78 *)
             | Some r =>
               match LONG_VOWELS r with
               | Some hit => go previous_kana (hira ++ [hit])
               | None => go previous_kana hira
               end
             | None => go previous_kana hira
             end
      end
    | _, _ =>
      if negb (is_char_long_dash c) && is_char_katakana c then              (* 79-95 *)
        h <- hira_of_kata_m b c ;; go (Some h) (hira ++ [h])
      else go None (hira ++ [c])                                            (* 96-99 *)
    end
  end.
Definition katakana_to_hiragana_with_opt_m (b : build) (um : N) (E : std) (input : str) (is_destination_romaji : bool)
  : res str := k2h_loop_m b um E input is_destination_romaji 0 None input [].

(** to_kana_node_tree.rs:8-25; [i += 1] on line 18 *)
Fixpoint k_walk_m (b : build) (um : N) (n : knode) (chars : str) (i : N) : res (knode * N) :=
  match chars with
  | [] => Ok (n, i)
  | c :: rest =>
    match k_find n (ascii_lower c) with
    | Some m => i' <- usize_add b um i 1 ;; k_walk_m b um m rest i'
    | None => Ok (n, i)
    end
  end.
Definition k_get_m (b : build) (um : N) (n : knode) (chars : str) : res (option str * N) :=
  x <- k_walk_m b um n chars 0 ;;
  Ok (match kout (fst x) with Some _ => (kout (fst x), snd x) | None => (None, 0) end).

(** to_kana.rs:14-49 *)
Fixpoint to_kana_loop_m (b : build) (um : N) (fuel : nat) (E : std) (o : options) (chars : str) (curr_pos : N)
    (output : str) : res str :=
  match fuel with
  | O => NoFuel
  | S fuel' =>
    if curr_pos =? N.of_nat (length chars) then Ok output                   (* 22 *)
    else
      tree <- kana_tree o ;;
      sl <- slice_from chars (N.to_nat curr_pos) ;;
      result <- k_get_m b um tree sl ;;                                     (* 23-29 *)
      if (snd result =? 0)
         || match fst result with None => true | Some _ => false end then   (* 32-34 *)
        c <- index chars (N.to_nat curr_pos) ;;
        next <- usize_add b um curr_pos 1 ;;
        to_kana_loop_m b um fuel' E o chars next (output ++ [c])
      else
        stop <- usize_add b um curr_pos (snd result) ;;                     (* 36 *)
        seg <- slice chars (N.to_nat curr_pos) (N.to_nat stop) ;;
        out <- unwrap (fst result) ;;
        out' <- (if forallb (is_upper E) seg then hiragana_to_katakana_m b out else Ok out) ;;
        next <- usize_add b um curr_pos (snd result) ;;                     (* 44 *)
        to_kana_loop_m b um fuel' E o chars next (output ++ out')
  end.
Definition to_kana_with_opt_m (b : build) (um : N) (E : std) (input : str) (o : options) : res str :=
  to_kana_loop_m b um (S (length input)) E o input 0 [].

(** utils/romaji_to_hiragana.rs:8-11, to_hiragana.rs:15-35, to_katakana.rs:12-22 *)
Definition romaji_to_hiragana_m (b : build) (um : N) (E : std) (input : str) (o : options) : res str :=
  to_kana_with_opt_m b um E (to_lowercase E input) o.
Definition to_hiragana_with_opt_m (b : build) (um : N) (E : std) (input : str) (o : options) : res str :=
  if pass_romaji o then katakana_to_hiragana_with_opt_m b um E input false
  else if is_mixed input then
    romaji <- katakana_to_hiragana_with_opt_m b um E input false ;;
    romaji_to_hiragana_m b um E romaji o
  else if is_romaji input
       || match option_map is_char_english_punctuation (nth_error input 0) with
          | Some b => b | None => false end then
    romaji_to_hiragana_m b um E input o
  else katakana_to_hiragana_with_opt_m b um E input false.
Definition to_katakana_with_opt_m (b : build) (um : N) (E : std) (input : str) (o : options) : res str :=
  if pass_romaji o then hiragana_to_katakana_m b input
  else if is_romaji input || is_mixed input then
    romaji <- romaji_to_hiragana_m b um E input o ;;
    hiragana_to_katakana_m b romaji
  else hiragana_to_katakana_m b input.

(** to_romaji_node_tree.rs:8-20; [i += 1] on line 17 *)
Fixpoint r_walk_m (b : build) (um : N) (E : std) (n : rnode) (chars : str) (i : N) : res (rnode * N) :=
  match chars with
  | [] => Ok (n, i)
  | c :: rest =>
    o <- r_find E n c ;;
    match o with
    | Some m => i' <- usize_add b um i 1 ;; r_walk_m b um E m rest i'
    | None => Ok (n, i)
    end
  end.
Definition r_get_m (b : build) (um : N) (E : std) (n : rnode) (chars : str) : res (str * N) :=
  x <- r_walk_m b um E n chars 0 ;; Ok (rout (fst x), snd x).

(** to_romaji.rs:12-49 *)
Fixpoint to_romaji_loop_m (b : build) (um : N) (fuel : nat) (E : std) (o : options) (orig_chars chars : str)
    (curr_pos : N) (output : str) : res str :=
  match fuel with
  | O => NoFuel
  | S fuel' =>
    if curr_pos =? N.of_nat (length chars) then Ok output                   (* 21 *)
    else
      sl <- slice_from chars (N.to_nat curr_pos) ;;
      result <- r_get_m b um E TO_ROMAJI_NODE_TREE sl ;;                    (* 22 *)
      if snd result =? 0 then                                               (* 24-26 *)
        c <- index chars (N.to_nat curr_pos) ;;
        next <- usize_add b um curr_pos 1 ;;
        to_romaji_loop_m b um fuel' E o orig_chars chars next (output ++ [c])
      else
        stop <- usize_add b um curr_pos (snd result) ;;                     (* 29 *)
        seg <- slice orig_chars (N.to_nat curr_pos) (N.to_nat stop) ;;
        let upper := if forallb is_char_katakana seg then upcase_katakana o else false in
        next <- usize_add b um curr_pos (snd result) ;;                     (* 44 *)
        to_romaji_loop_m b um fuel' E o orig_chars chars next
          (output ++ (if upper then to_uppercase E (fst result) else fst result))
  end.
Definition to_romaji_with_opt_m (b : build) (um : N) (E : std) (orig : str) (o : options) : res str :=
  kana <- katakana_to_hiragana_with_opt_m b um E orig true ;;
  to_romaji_loop_m b um (S (length kana)) E o orig kana 0 [].
