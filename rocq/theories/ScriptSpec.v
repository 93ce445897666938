(** * Specification of the kana script conversions (C16-C22, C54, C61-C64) *)
From Verif Require Import Base Std KanaSpec Predicates.

Definition long_mark : N := 0x30FC.                       (* ー *)
(** hiragana for a katakana letter; ヵ and ヶ are symbols and stay *)
Definition hiragana_for (k h : N) : Prop :=
  (k = ch "ヷ" /\ h = ch "わ") \/ (k = ch "ヸ" /\ h = ch "ゐ") \/ (k = ch "ヹ" /\ h = ch "ゑ")
  \/ (k = ch "ヺ" /\ h = ch "を")
  \/ (0x30A1 <= k <= 0x30F4 /\ h = k - 96)
  \/ (~ 0x30A1 <= k <= 0x30F4 /\ ~ 0x30F7 <= k <= 0x30FA /\ h = k).

Definition same_letter (a b : N) : Prop := exists d, lowers a d /\ lowers b d.
Definition same_up_to_case (s t : str) : Prop := Forall2 same_letter s t.

(** the vowel a long mark stands for after a katakana letter, by row ([o]: the
    vowel written after the o row, う in to_hiragana and お in to_romaji).  ヴ is in
    every row: which one is used depends on the binary search (see C53). *)
Definition mark_table (o : str) : list (str * str) := [
  (u "ァアカガサザタダナハバパマャヤラヮワヷヴ", u "あ");
  (u "ィイキギシジチヂニヒビピミリヰヸヴ", u "い");
  (u "ゥウクグスズツヅヌフブプムュユルヴ", u "う");
  (u "ェエケゲセゼテデネヘベペメレヱヹヴ", u "え");
  (u "ォオコゴソゾトドノホボポモョヨロヲヺヴ", o);
  (u "ッン", u "")   (* no vowel: the mark disappears *)
].
Definition mark_vowel (o : str) (k : N) (v : str) : Prop :=
  exists row, In (row, v) (mark_table o) /\ In k row.

(** the katakana letter a mark after [a] lengthens: the last letter of [a], with
    nothing but marks, ・, ヵ and ヶ in between *)
Definition lengthens (a : str) (k : N) : Prop := exists a' run, a = a' ++ k :: run /\
  katakana_letter k /\ ~ In k (u "ヵヶ") /\ Forall (fun c => In c (u "ー・ヵヶ")) run.

(** [c], standing after [a], is rewritten to [p] *)
Definition hiragana_piece (o : str) (a : str) (c : N) (p : str) : Prop :=
  (c <> long_mark /\ exists h, hiragana_for c h /\ p = [h])
  \/ (c = long_mark /\ exists k, lengthens a k /\ mark_vowel o k p)
  \/ (c = long_mark /\ (~ exists k, lengthens a k) /\ p = [long_mark]).

(** the text [s], standing after [a], is rewritten to [t] *)
Inductive hiragana_text (o : str) : str -> str -> str -> Prop :=
| HT_nil a : hiragana_text o a [] []
| HT_cons a c s p t : hiragana_piece o a c p -> hiragana_text o (a ++ [c]) s t ->
    hiragana_text o a (c :: s) (p ++ t).

Definition smart_quote (c : N) : Prop := In c (u "‘’“”").

(** a word: (letter, its hiragana, the vowel, number of marks) *)
Definition word_letter (o : str) (m : N * N * str * nat) : Prop :=
  match m with (k, h, v, n) => hiragana_for k h /\ mark_vowel o k v end.
Definition word_katakana (ms : list (N * N * str * nat)) : str :=
  flat_map (fun m => match m with (k, h, v, n) => k :: repeat long_mark n end) ms.
Definition word_hiragana (ms : list (N * N * str * nat)) : str :=
  flat_map (fun m => match m with (k, h, v, n) => h :: concat (repeat v n) end) ms.

(** kana and romaji in one text; English punctuation at its beginning (C61, C62) *)
Definition mixed_text (s : str) : Prop :=
  has (fun c => S_hiragana c \/ S_katakana c) s /\ has S_romaji s.
Definition starts_with_punct (s : str) : Prop := exists c r, s = c :: r /\ S_en_punct c.
(** letter case is a matter of ASCII only *)
Definition ascii_or_caseless (s : str) : Prop := forall c, In c s -> c < 128 \/ caseless c = true.
