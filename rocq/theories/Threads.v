(** * The public functions called from several threads

    Every [lazy_static!] of the crate is made by the first thread that reads it; a thread that reads it meanwhile waits.  The
    functions are written again with each reading of a static visible ([Use]); everything between two readings touches only
    the thread's own data.  [Convert.v], [Strings.v] and [Tokenize.v] are the same functions with the statics as constants. *)
From Verif Require Import Base Std Constants Chars Trees KanaTreeData RomajiTreeData KanaTree RomajiTree Strings Tokenize Convert.

(** the [static ref]s: to_kana_node_tree.rs:52, 4819, 4840; to_romaji_node_tree.rs:43; utils/katakana_to_hiragana.rs:34;
    constants.rs:69, 78, 83 *)
Inductive static := KanaT | ObsoleteT | ImeT | RomajiT | VowelM | JapaneseR | RomajiR | EnPunctR.
Definition contents (i : static) : Type :=
  match i with
  | KanaT | ObsoleteT | ImeT => knode
  | RomajiT => rnode
  | VowelM => char -> option char
  | JapaneseR | RomajiR | EnPunctR => list range
  end.

(** A computation that reads statics. *)
Inductive prog (A : Type) : Type :=
| Ret (r : res A)
| Use (i : static) (k : contents i -> prog A).
Arguments Ret {A} r.
Arguments Use {A} i k.
Fixpoint bindp {A B} (p : prog A) (f : A -> prog B) : prog B :=
  match p with
  | Ret (Ok a) => f a
  | Ret Panic => Ret Panic
  | Ret NoFuel => Ret NoFuel
  | Use i k => Use i (fun v => bindp (k v) f)
  end.
Notation "x <<- e ;; k" := (bindp e (fun x => k)) (at level 61, e at next level, right associativity).
Definition pure {A} (a : A) : prog A := Ret (Ok a).

(** ** The initialisers *)
(** to_kana_node_tree.rs:4820-4838 of the tree cloned in line 4820 *)
Definition obsolete_from (tree : knode) : res knode :=
  ts <- unwrap (k_modify (ktrans tree) (ch "w") (fun w =>
     KNode (filter (fun x => negb (fst x =? ch "i") && negb (fst x =? ch "e")) (ktrans w)
            ++ [(ch "i", KNode [] (Some (u "ゐ")))]
            ++ [(ch "e", KNode [] (Some (u "ゑ")))])
           (kout w))) ;;
  Ok (k_sort (KNode ts (kout tree))).
(** to_kana_node_tree.rs:4841-4859 *)
Definition ime_from (tree : knode) : res knode :=
  ts <- unwrap (k_modify (ktrans tree) (ch "n") (fun w =>
     KNode (ktrans w
            ++ [(ch "n", KNode [] (Some (u "ん")))]
            ++ [(ch " ", KNode [] (Some (u "ん")))])
           None)) ;;
  Ok (k_sort (KNode ts (kout tree))).
Definition init (i : static) : prog (contents i) :=
  match i with
  | KanaT => pure (k_sort (KNode kana_literal None))                        (* to_kana_node_tree.rs:52-4818 *)
  | ObsoleteT => Use KanaT (fun tree => Ret (obsolete_from tree))           (* 4819-4839 *)
  | ImeT => Use KanaT (fun tree => Ret (ime_from tree))                     (* 4840-4860 *)
  | RomajiT => pure (r_sort (RNode (Some romaji_literal) []))               (* to_romaji_node_tree.rs:43-2682 *)
  | VowelM => pure LONG_VOWELS                                              (* utils/katakana_to_hiragana.rs:34-40 *)
  | JapaneseR => pure ([ZENKAKU_UPPERCASE; ZENKAKU_LOWERCASE; ZENKAKU_NUMBERS; COMMON_CJK; RARE_CJK]
                       ++ KANA_RANGES ++ JA_PUNCTUATION_RANGES)             (* constants.rs:69-74 *)
  | RomajiR => pure ([MODERN_ENGLISH] ++ HEPBURN_MACRON_RANGES)             (* constants.rs:78-82 *)
  | EnPunctR => pure ([(0x20, 0x2F); (0x3A, 0x3F); (0x5B, 0x60); (0x7B, 0x7E)] ++ SMART_QUOTE_RANGES)  (* 83-87 *)
  end.

(** ** Predicates *)
(** utils/is_char_japanese.rs:6-10, utils/is_char_romaji.rs:5-9, utils/is_char_english_punctuation.rs:7-11 *)
Definition is_char_japanese_p (c : char) : prog bool := Use JapaneseR (fun rs => pure (in_ranges c rs)).
Definition is_char_romaji_p (c : char) : prog bool := Use RomajiR (fun rs => pure (in_ranges c rs)).
Definition is_char_english_punctuation_p (c : char) : prog bool := Use EnPunctR (fun rs => pure (in_ranges c rs)).
(** [Iterator::any], [Iterator::all]; [&&] and [||] *)
Fixpoint any_p {A} (f : A -> prog bool) (l : list A) : prog bool :=
  match l with [] => pure false | x :: l' => b <<- f x ;; if b then pure true else any_p f l' end.
Fixpoint all_p {A} (f : A -> prog bool) (l : list A) : prog bool :=
  match l with [] => pure true | x :: l' => b <<- f x ;; if b then all_p f l' else pure false end.
Definition and_p (p q : prog bool) : prog bool := b <<- p ;; if b then q else pure false.
Definition or_p (p q : prog bool) : prog bool := b <<- p ;; if b then pure true else q.
(** is_japanese.rs:7-12, is_romaji.rs:7-12 *)
Definition is_japanese_p (input : str) : prog bool := if is_empty input then pure false else all_p is_char_japanese_p input.
Definition is_romaji_p (input : str) : prog bool := if is_empty input then pure false else all_p is_char_romaji_p input.
(** is_mixed.rs:15-23 *)
Definition is_mixed_pass_kanji_p (input : str) (pass_kanji : bool) : prog bool :=
  let has_kanji := if negb pass_kanji then existsb is_char_kanji input else false in
  and_p (and_p (pure (existsb is_char_hiragana input || existsb is_char_katakana input)) (any_p is_char_romaji_p input))
    (pure (negb has_kanji)).

(** ** Conversions *)
(** to_kana.rs:23-29 *)
Definition kana_static (o : options) : prog knode :=
  if use_obsolete_kana o then Use ObsoleteT pure
  else if imemode o then Use ImeT pure
  else Use KanaT pure.
(** to_kana.rs:20-48 *)
Fixpoint to_kana_loop_p (fuel : nat) (E : std) (o : options) (chars : str) (curr_pos : nat)
    (output : str) : prog str :=
  match fuel with
  | O => Ret NoFuel
  | S fuel' =>
    if Nat.eqb curr_pos (length chars) then pure output
    else
      tree <<- kana_static o ;;
      sl <<- Ret (slice_from chars curr_pos) ;;
      let result := k_get tree sl in
      if Nat.eqb (snd result) 0
         || match fst result with None => true | Some _ => false end then
        c <<- Ret (index chars curr_pos) ;;
        to_kana_loop_p fuel' E o chars (curr_pos + 1) (output ++ [c])
      else
        seg <<- Ret (slice chars curr_pos (curr_pos + snd result)) ;;
        out <<- Ret (unwrap (fst result)) ;;
        if forallb (is_upper E) seg then
          k <<- Ret (hiragana_to_katakana out) ;;
          to_kana_loop_p fuel' E o chars (curr_pos + snd result) (output ++ k)
        else
          to_kana_loop_p fuel' E o chars (curr_pos + snd result) (output ++ out)
  end.
(** to_kana.rs:14-49 *)
Definition to_kana_p (E : std) (input : str) (o : options) : prog str :=
  to_kana_loop_p (S (length input)) E o input 0 [].
(** utils/katakana_to_hiragana.rs:47-103 *)
Fixpoint k2h_loop_p (E : std) (input : str) (is_destination_romaji : bool)
    (index : nat) (previous_kana : option char) (rest : str) (hira : str) : prog str :=
  match rest with
  | [] => pure hira
  | c :: rest' =>
    let go prev out := k2h_loop_p E input is_destination_romaji (S index) prev rest' out in
    if is_char_slash_dot c || is_char_initial_long_dash c index || is_kana_as_symbol c
    then go previous_kana (hira ++ [c])
    else match previous_kana, is_char_inner_long_dash c index with
    | Some pk, true =>
      tree <<- Use RomajiT pure ;;
      o <<- Ret (r_find E tree pk) ;;
      match o with
      | None => go previous_kana (hira ++ [c])
      | Some node =>
        let romaji_opt := last_char (rout node) in
        im1 <<- Ret (checked_sub index 1) ;;
        let long_o :=
          match nth_error input im1 with
          | Some prev_char =>
            is_char_katakana prev_char
            && match romaji_opt with Some r => r =? ch "o" | None => false end
            && is_destination_romaji
          | None => false
          end in
        if long_o then go previous_kana (hira ++ [ch "お"])
        else match romaji_opt with
             | Some r =>
               long_vowels <<- Use VowelM pure ;;                           (* 76: only if there is a last letter *)
               match long_vowels r with
               | Some hit => go previous_kana (hira ++ [hit])
               | None => go previous_kana hira
               end
             | None => go previous_kana hira
             end
      end
    | _, _ =>
      if negb (is_char_long_dash c) && is_char_katakana c then
        go (Some (hira_of_kata c)) (hira ++ [hira_of_kata c])
      else go None (hira ++ [c])
    end
  end.
Definition katakana_to_hiragana_p (E : std) (input : str) (is_destination_romaji : bool) : prog str :=
  k2h_loop_p E input is_destination_romaji 0 None input [].
(** to_hiragana.rs:15-35 *)
Definition to_hiragana_p (E : std) (input : str) (o : options) : prog str :=
  if pass_romaji o then katakana_to_hiragana_p E input false
  else
    mixed <<- is_mixed_pass_kanji_p input true ;;
    if (mixed : bool) then
      romaji <<- katakana_to_hiragana_p E input false ;;
      to_kana_p E (to_lowercase E romaji) o
    else
      b <<- or_p (is_romaji_p input)
              (match nth_error input 0 with Some c => is_char_english_punctuation_p c | None => pure false end) ;;
      if (b : bool) then to_kana_p E (to_lowercase E input) o
      else katakana_to_hiragana_p E input false.
(** to_katakana.rs:12-22 *)
Definition to_katakana_p (E : std) (input : str) (o : options) : prog str :=
  if pass_romaji o then Ret (hiragana_to_katakana input)
  else
    b <<- or_p (is_romaji_p input) (is_mixed_pass_kanji_p input true) ;;
    if (b : bool) then
      romaji <<- to_kana_p E (to_lowercase E input) o ;;
      Ret (hiragana_to_katakana romaji)
    else Ret (hiragana_to_katakana input).
(** to_romaji.rs:18-48 *)
Fixpoint to_romaji_loop_p (fuel : nat) (E : std) (o : options) (orig_chars chars : str)
    (curr_pos : nat) (output : str) : prog str :=
  match fuel with
  | O => Ret NoFuel
  | S fuel' =>
    if Nat.eqb curr_pos (length chars) then pure output
    else
      tree <<- Use RomajiT pure ;;
      sl <<- Ret (slice_from chars curr_pos) ;;
      result <<- Ret (r_get E tree sl) ;;
      if Nat.eqb (snd result) 0 then
        c <<- Ret (index chars curr_pos) ;;
        to_romaji_loop_p fuel' E o orig_chars chars (curr_pos + 1) (output ++ [c])
      else
        seg <<- Ret (slice orig_chars curr_pos (curr_pos + snd result)) ;;
        let upper := if forallb is_char_katakana seg then upcase_katakana o else false in
        to_romaji_loop_p fuel' E o orig_chars chars (curr_pos + snd result)
          (output ++ (if upper then to_uppercase E (fst result) else fst result))
  end.
(** to_romaji.rs:12-49 *)
Definition to_romaji_p (E : std) (orig : str) (o : options) : prog str :=
  kana <<- katakana_to_hiragana_p E orig true ;;
  to_romaji_loop_p (S (length kana)) E o orig kana 0 [].

(** ** Tokens *)
(** tokenize.rs:58-91 *)
Definition get_type_p (input : char) (compact : bool) : prog token_type :=
  if compact then
    if input =? ch " " then pure En
    else if input =? 0x3000 then pure Ja
    else
      other <<- or_p (or_p (pure (is_char_japanese_number input || is_char_latin_number input))
                 (is_char_english_punctuation_p input)) (pure (is_char_japanese_punctuation input)) ;;
      if (other : bool) then pure Other else
      ja <<- is_char_japanese_p input ;;
      if (ja : bool) then pure Ja else
      en <<- is_char_romaji_p input ;;
      if (en : bool) then pure En else pure Other
  else
    if input =? ch " " then pure Space
    else if input =? 0x3000 then pure Space
    else if is_char_japanese_number input then pure JaNum
    else if is_char_latin_number input then pure EnNum
    else
      punct <<- is_char_english_punctuation_p input ;;
      if (punct : bool) then pure EnPunc
      else if is_char_japanese_punctuation input then pure JaPunc
      else if is_char_kanji input then pure Kanji
      else if is_char_hiragana input then pure Hiragana
      else if is_char_katakana input then pure Katakana
      else
        ja <<- is_char_japanese_p input ;;
        if (ja : bool) then pure Ja else
        en <<- is_char_romaji_p input ;;
        if (en : bool) then pure En else pure Other.
(** [Itertools::group_by] asks for the key of each element once, in order *)
Fixpoint keys_p {A K} (key : A -> prog K) (l : list A) : prog (list (K * A)) :=
  match l with [] => pure [] | x :: l' => k <<- key x ;; r <<- keys_p key l' ;; pure ((k, x) :: r) end.
(** tokenize.rs:114-120 *)
Definition tokenize_p (input : str) (compact : bool) : prog (list str) :=
  l <<- keys_p (fun c => get_type_p c compact) input ;;
  pure (map (fun g => map snd (snd g)) (group_by token_type_eqb fst l)).
(** trim_okurigana.rs:66-95 *)
Definition trim_okurigana_p (input : str) (trim_from_start : bool) (match_kanji : option str) : prog str :=
  ja <<- is_japanese_p input ;;
  if negb ja then pure input else
  lead <<- Ret (is_leading_without_initial_kana input trim_from_start) ;;
  if (lead : bool) then pure input else
  trail <<- Ret (is_trailing_without_final_kana input trim_from_start) ;;
  if (trail : bool) then pure input else
  if is_invalid_matcher input match_kanji then pure input else
  tokens <<- tokenize_p (match match_kanji with Some m => m | None => input end) false ;;
  Ret (match tokens with
  | [] => Ok input
  | _ =>
    if trim_from_start then
      t0 <- index tokens 0 ;; Ok (trim_start_matches input t0)
    else
      tl <- unwrap (nth_error (rev tokens) 0) ;; Ok (trim_end_matches input tl)
  end).

(** ** Calls *)
Inductive call :=
| ToKana (s : str) (o : options) | ToHiragana (s : str) (o : options) | ToKatakana (s : str) (o : options) | ToRomaji (s : str) (o : options)
| IsJapanese (s : str) | IsRomaji (s : str) | IsMixed (s : str) (pass_kanji : bool)
| Tokens (s : str) (compact : bool) | Trim (s : str) (from_start : bool) (matcher : option str).
Inductive answer := Text (s : str) | Truth (b : bool) | Parts (l : list str).
Definition call_p (E : std) (c : call) : prog answer :=
  match c with
  | ToKana s o => t <<- to_kana_p E s o ;; pure (Text t)
  | ToHiragana s o => t <<- to_hiragana_p E s o ;; pure (Text t)
  | ToKatakana s o => t <<- to_katakana_p E s o ;; pure (Text t)
  | ToRomaji s o => t <<- to_romaji_p E s o ;; pure (Text t)
  | IsJapanese s => b <<- is_japanese_p s ;; pure (Truth b)
  | IsRomaji s => b <<- is_romaji_p s ;; pure (Truth b)
  | IsMixed s k => b <<- is_mixed_pass_kanji_p s k ;; pure (Truth b)
  | Tokens s k => l <<- tokenize_p s k ;; pure (Parts l)
  | Trim s f m => t <<- trim_okurigana_p s f m ;; pure (Text t)
  end.
(** what a thread does: one call after another *)
Fixpoint calls_p (E : std) (cs : list call) : prog (list answer) :=
  match cs with [] => pure [] | c :: cs' => a <<- call_p E c ;; l <<- calls_p E cs' ;; pure (a :: l) end.

(** ** Threads

    [lazy_static] 1.4 on [std::sync::Once]: the first thread that reads an uninitialised static runs the initialiser, others
    wait; when it returns the value is there for all; when it panics the static is poisoned, and reading it panics. *)
Inductive cell (A : Type) : Type := Empty | Busy (t : nat) | Done (a : A) | Poisoned.
Arguments Empty {A}.
Arguments Busy {A} t.
Arguments Done {A} a.
Arguments Poisoned {A}.
Definition memory : Type := forall i, cell (contents i).
Definition static_eq_dec (i j : static) : {i = j} + {i <> j}.
Proof. decide equality. Defined.
Definition store (m : memory) (i : static) (c : cell (contents i)) : memory := fun j =>
  match static_eq_dec i j with left e => eq_rect i (fun j => cell (contents j)) c j e | right _ => m j end.

(** what is to be done when the running computation returns: initialisers that have called others wait on this stack *)
Inductive frames : Type -> Type :=
| Bottom : frames (list answer)
| Push (i : static) {B : Type} (k : contents i -> prog B) (below : frames B) : frames (contents i).
Record thread : Type := Thread { kind : Type; running : prog kind; waiting : frames kind }.
Arguments Thread {kind} running waiting.

(** a panic passes through to the caller *)
Definition fails {A B} (r : res A) : res B := match r with NoFuel => NoFuel | _ => Panic end.
(** one step of thread [t]; [None] if it waits for another thread or has finished *)
Definition advance (t : nat) (m : memory) (th : thread) : option (option static * memory * thread) :=
  match th with
  | @Thread T p fs =>
    match p with
    | Use i k =>
      match m i with
      | Empty => Some (Some i, store m i (Busy t), Thread (init i) (Push i k fs))
      | Busy _ => None
      | Done v => Some (None, m, Thread (k v) fs)
      | Poisoned => Some (None, m, Thread (Ret Panic) fs)
      end
    | Ret r =>
      match fs in frames T return res T -> option (option static * memory * thread) with
      | Bottom => fun _ => None
      | Push i k fs' => fun r =>
        match r with
        | Ok v => Some (None, store m i (Done v), Thread (k v) fs')
        | r => Some (None, store m i Poisoned, Thread (Ret (fails r)) fs')
        end
      end r
    end
  end.
(** the answers of a thread that has finished, or its panic *)
Definition finished (th : thread) (r : res (list answer)) : Prop := th = Thread (Ret r) Bottom.

Definition state : Type := memory * list thread.
(** in the beginning no static is initialised *)
Definition start (E : std) (css : list (list call)) : state :=
  (fun _ => Empty, map (fun cs => Thread (calls_p E cs) Bottom) css).
Fixpoint replace {A} (l : list A) (t : nat) (x : A) : list A :=
  match l, t with [], _ => [] | _ :: l', O => x :: l' | y :: l', S t' => y :: replace l' t' x end.
(** some thread advances; [ev] is the static whose initialiser it starts, if it does *)
Definition step (st : state) (ev : option static) (st' : state) : Prop :=
  exists t th m' th', nth_error (snd st) t = Some th /\ advance t (fst st) th = Some (ev, m', th')
    /\ st' = (m', replace (snd st) t th').
(** any number of steps of any threads in any order; the last event first *)
Inductive run (E : std) (css : list (list call)) : list (option static) -> state -> Prop :=
| Run_start : run E css [] (start E css)
| Run_step : forall evs ev st st', run E css evs st -> step st ev st' -> run E css (ev :: evs) st'.
