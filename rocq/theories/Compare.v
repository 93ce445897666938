(** * The comparisons made by the conversions (C100)

    The loops of Cost.v again, with the lookups broken down: [compared] counts how often a character of the text is
    compared with a character of a node, in [transitions.iter().find(|&t| t.0 == char)] (to_kana_node_tree.rs:28) and in
    [binary_search_by_key] (to_romaji_node_tree.rs:24).  CompareProofs.v shows that without the counter
    these are the functions of the model. *)
From Verif Require Import Base Std Constants Chars Trees KanaTree RomajiTree Strings Convert.

(** to_kana_node_tree.rs:28: [Iterator::find] *)
Fixpoint find_cmp {A : Type} (l : list (char * A)) (c : char) (compared : nat) : option A * nat :=
  match l with
  | [] => (None, compared)
  | t :: l' => if fst t =? c then (Some (snd t), S compared) else find_cmp l' c (S compared)
  end.
(** to_kana_node_tree.rs:27-30 *)
Definition k_find_cmp (n : knode) (c : char) (compared : nat) : option knode * nat := find_cmp (ktrans n) c compared.

(** to_kana_node_tree.rs:8-25 *)
Fixpoint k_walk_cmp (n : knode) (chars : str) (i compared : nat) : knode * nat * nat :=
  match chars with
  | [] => (n, i, compared)
  | c :: rest =>
    match k_find_cmp n (ascii_lower c) compared with
    | (Some m, compared') => k_walk_cmp m rest (S i) compared'
    | (None, compared') => (n, i, compared')
    end
  end.
Definition k_get_cmp (n : knode) (chars : str) (compared : nat) : option str * nat * nat :=
  match k_walk_cmp n chars 0 compared with
  | (m, i, l) =>
    match kout m with
    | Some _ => (kout m, i, l)
    | None => (None, 0%nat, l)
    end
  end.

(** to_kana.rs:20-48 *)
Fixpoint to_kana_loop_cmp (fuel : nat) (E : std) (o : options) (chars : str) (curr_pos : nat)
    (output : str) (compared : nat) : res (str * nat) :=
  match fuel with
  | O => NoFuel
  | S fuel' =>
    if Nat.eqb curr_pos (length chars) then Ok (output, compared)
    else
      tree <- kana_tree o ;;
      sl <- slice_from chars curr_pos ;;
      match k_get_cmp tree sl compared with
      | (result, i, l) =>
        if Nat.eqb i 0 || match result with None => true | Some _ => false end then
          c <- index chars curr_pos ;;
          to_kana_loop_cmp fuel' E o chars (curr_pos + 1) (output ++ [c]) l
        else
          seg <- slice chars curr_pos (curr_pos + i) ;;
          out <- unwrap result ;;
          if forallb (is_upper E) seg then
            k <- hiragana_to_katakana out ;;
            to_kana_loop_cmp fuel' E o chars (curr_pos + i) (output ++ k) l
          else
            to_kana_loop_cmp fuel' E o chars (curr_pos + i) (output ++ out) l
      end
  end.
Definition to_kana_cmp (E : std) (input : str) (o : options) : res (str * nat) :=
  to_kana_loop_cmp (S (length input)) E o input 0 [] 0.

(** ** The binary searches of Std.v; the second component counts the calls of the closure *)
Definition search : Type := list char -> char -> option nat * nat.

(** Rust 1.52 .. 1.81 *)
Fixpoint bsearch_152_loop_cmp (fuel : nat) (keys : list char) (k : char) (left size compared : nat) : option nat * nat :=
  match fuel with
  | O => (None, compared)
  | S fuel' =>
    match size with
    | O => (None, compared)
    | _ =>
      let mid := (left + Nat.div2 size)%nat in
      let e := nth mid keys 0 in
      match N.compare e k with
      | Lt => bsearch_152_loop_cmp fuel' keys k (S mid) (left + size - S mid) (S compared)
      | Gt => bsearch_152_loop_cmp fuel' keys k left (mid - left) (S compared)
      | Eq => (Some mid, S compared)
      end
    end
  end.
Definition bsearch_152_cmp : search := fun keys k => bsearch_152_loop_cmp (S (length keys)) keys k 0 (length keys) 0.

(** since Rust 1.82 *)
Fixpoint bsearch_182_loop_cmp (fuel : nat) (keys : list char) (k : char) (base size compared : nat) : nat * nat :=
  match fuel with
  | O => (base, compared)
  | S fuel' =>
    if Nat.leb size 1 then (base, compared)
    else
      let half := Nat.div2 size in
      let mid := (base + half)%nat in
      bsearch_182_loop_cmp fuel' keys k (if k <? nth mid keys 0 then base else mid) (size - half) (S compared)
  end.
Definition bsearch_182_cmp : search := fun keys k =>
  match length keys with
  | O => (None, 0%nat)
  | n => match bsearch_182_loop_cmp n keys k 0 n 0 with
         | (base, compared) => (if nth base keys 0 =? k then Some base else None, S compared)
         end
  end.

(** ** [to_romaji] with a search [B] *)
Section Romaji.
  Context (B : search) (E : std).
  (** to_romaji_node_tree.rs:22-31 *)
  Definition r_find_cmp (n : rnode) (c : char) (compared : nat) : res (option rnode * nat) :=
    match rtrans n with
    | Some t =>
      match B (map fst t) c with
      | (Some i, k) => x <- index t i ;; Ok (Some (snd x), (compared + k)%nat)
      | (None, k) => Ok (None, (compared + k)%nat)
      end
    | None => Ok (None, compared)
    end.
  (** utils/katakana_to_hiragana.rs:47-103 *)
  Fixpoint k2h_loop_cmp (input : str) (is_destination_romaji : bool)
      (index : nat) (previous_kana : option char) (rest : str) (hira : str) (compared : nat) : res (str * nat) :=
    match rest with
    | [] => Ok (hira, compared)
    | c :: rest' =>
      let go prev out l := k2h_loop_cmp input is_destination_romaji (S index) prev rest' out l in
      if is_char_slash_dot c || is_char_initial_long_dash c index || is_kana_as_symbol c
      then go previous_kana (hira ++ [c]) compared
      else match previous_kana, is_char_inner_long_dash c index with
      | Some pk, true =>
        o <- r_find_cmp TO_ROMAJI_NODE_TREE pk compared ;;
        match o with
        | (None, l) => go previous_kana (hira ++ [c]) l
        | (Some node, l) =>
          let romaji_opt := last_char (rout node) in
          im1 <- checked_sub index 1 ;;
          let long_o :=
            match nth_error input im1 with
            | Some prev_char =>
              is_char_katakana prev_char
              && match romaji_opt with Some r => r =? ch "o" | None => false end
              && is_destination_romaji
            | None => false
            end in
          if long_o then go previous_kana (hira ++ [ch "お"]) l
          else match romaji_opt with
               | Some r =>
                 match LONG_VOWELS r with
                 | Some hit => go previous_kana (hira ++ [hit]) l
                 | None => go previous_kana hira l
                 end
               | None => go previous_kana hira l
               end
        end
      | _, _ =>
        if negb (is_char_long_dash c) && is_char_katakana c then
          go (Some (hira_of_kata c)) (hira ++ [hira_of_kata c]) compared
        else go None (hira ++ [c]) compared
      end
    end.
  Definition k2h_cmp (input : str) (is_destination_romaji : bool) : res (str * nat) :=
    k2h_loop_cmp input is_destination_romaji 0 None input [] 0.

  (** to_romaji_node_tree.rs:8-20 *)
  Fixpoint r_walk_cmp (n : rnode) (chars : str) (i compared : nat) : res (rnode * nat * nat) :=
    match chars with
    | [] => Ok (n, i, compared)
    | c :: rest =>
      o <- r_find_cmp n c compared ;;
      match o with
      | (Some m, l) => r_walk_cmp m rest (S i) l
      | (None, l) => Ok (n, i, l)
      end
    end.
  (** to_romaji.rs:18-48 *)
  Fixpoint to_romaji_loop_cmp (fuel : nat) (o : options) (orig_chars chars : str)
      (curr_pos : nat) (output : str) (compared : nat) : res (str * nat) :=
    match fuel with
    | O => NoFuel
    | S fuel' =>
      if Nat.eqb curr_pos (length chars) then Ok (output, compared)
      else
        sl <- slice_from chars curr_pos ;;
        w <- r_walk_cmp TO_ROMAJI_NODE_TREE sl 0 compared ;;
        match w with
        | (m, i, l) =>
          if Nat.eqb i 0 then
            c <- index chars curr_pos ;;
            to_romaji_loop_cmp fuel' o orig_chars chars (curr_pos + 1) (output ++ [c]) l
          else
            seg <- slice orig_chars curr_pos (curr_pos + i) ;;
            let upper := if forallb is_char_katakana seg then upcase_katakana o else false in
            to_romaji_loop_cmp fuel' o orig_chars chars (curr_pos + i)
              (output ++ (if upper then to_uppercase E (rout m) else rout m)) l
        end
    end.
  (** to_romaji.rs:12-49 *)
  Definition to_romaji_cmp (orig : str) (o : options) : res (str * nat) :=
    k <- k2h_cmp orig true ;;
    match k with
    | (kana, l) => to_romaji_loop_cmp (S (length kana)) o orig kana 0 [] l
    end.
End Romaji.
