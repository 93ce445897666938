(** * Proofs of the theorems of Props_Predicates.v *)
From Verif Require Import Base Tac Constants Chars Strings Predicates KanaSpec TokenizeProofs.

Lemma C35_character_classes_proof :
  forall c : N,
  (is_char_hiragana c = true <-> S_hiragana c) /\
  (is_char_katakana c = true <-> S_katakana c) /\
  (is_char_kanji c = true <-> S_kanji c) /\
  (is_char_romaji c = true <-> S_romaji c) /\
  (is_char_japanese_number c = true <-> S_ja_number c) /\
  (is_char_japanese_punctuation c = true <-> S_ja_punct c) /\
  (is_char_english_punctuation c = true <-> S_en_punct c) /\
  (is_char_japanese c = true <-> S_japanese c) /\
  (is_char_kana c = true <-> is_char_hiragana c = true \/ is_char_katakana c = true) /\
  (is_char_punctuation c = true <->
     is_char_english_punctuation c = true \/ is_char_japanese_punctuation c = true) /\
  (is_char_kana c = true \/ is_char_kanji c = true \/ is_char_japanese_number c = true
     \/ is_char_japanese_punctuation c = true -> is_char_japanese c = true) /\
  (is_char_romaji c = true -> is_char_japanese c = false) /\
  (is_char_english_punctuation c = true -> is_char_japanese_punctuation c = false
     /\ is_char_japanese c = false) /\
  (is_char_hiragana c = true -> is_char_katakana c = true -> c = ch "ー") /\
  (is_char_kana c = true -> is_char_kanji c = false).
Proof.
  exact C35_holds.
Qed.

Lemma C36_string_predicates_proof :
  (forall s, is_hiragana s = true <-> all_nonempty S_hiragana s) /\
  (forall s, is_katakana s = true <-> all_nonempty S_katakana s) /\
  (forall s, is_kana s = true <-> all_nonempty (fun c => S_hiragana c \/ S_katakana c) s) /\
  (forall s, is_kanji s = true <-> all_nonempty S_kanji s) /\
  (forall s, is_romaji s = true <-> all_nonempty S_romaji s) /\
  (forall s, is_japanese s = true <-> all_nonempty S_japanese s) /\
  (forall s, contains_kanji s = true <-> exists c, In c s /\ S_kanji c) /\
  (forall a b, a <> [] -> b <> [] ->
     is_hiragana (a ++ b) = is_hiragana a && is_hiragana b /\
     is_katakana (a ++ b) = is_katakana a && is_katakana b /\
     is_kana (a ++ b) = is_kana a && is_kana b /\
     is_kanji (a ++ b) = is_kanji a && is_kanji b /\
     is_romaji (a ++ b) = is_romaji a && is_romaji b /\
     is_japanese (a ++ b) = is_japanese a && is_japanese b) /\
  (forall a b, contains_kanji (a ++ b) = contains_kanji a || contains_kanji b).
Proof.
  exact C36_holds.
Qed.

Lemma C37_implications_proof :
  forall s,
  (is_hiragana s = true \/ is_katakana s = true -> is_kana s = true) /\
  (is_kana s = true -> is_japanese s = true /\ contains_kanji s = false) /\
  (is_kanji s = true -> is_japanese s = true /\ contains_kanji s = true /\ is_kana s = false) /\
  (is_romaji s = true -> is_japanese s = false /\ is_kana s = false /\ is_kanji s = false
     /\ contains_kanji s = false /\ is_mixed s = false) /\
  (is_japanese s = true -> is_mixed s = false).
Proof.
  exact C37_holds.
Qed.

Lemma C38_is_mixed_proof :
  (forall s, is_mixed s = true <->
     has (fun c => S_hiragana c \/ S_katakana c) s /\ has S_romaji s) /\
  (forall s, is_mixed_pass_kanji s true = is_mixed s) /\
  (forall s, is_mixed_pass_kanji s false = true <-> is_mixed s = true /\ ~ has S_kanji s) /\
  (forall s t p, (forall c, In c s <-> In c t) ->
     is_mixed_pass_kanji s p = is_mixed_pass_kanji t p).
Proof.
  exact C38_holds.
Qed.

Lemma C39_whitelist_partial_proof :
  (forall s, is_japanese_with_whitelist s None = is_japanese s) /\
  (forall s, is_romaji_with_whitelist s None = is_romaji s) /\
  (forall s (re : regex), is_japanese_with_whitelist s (Some re) = true <->
     s <> [] /\ ((forall c, In c s -> S_japanese c) \/ re s = true)) /\
  (forall s (re : regex), is_romaji_with_whitelist s (Some re) = true <->
     s <> [] /\ ((forall c, In c s -> S_romaji c) \/ re s = true)).
Proof.
  exact C39_partial_holds.
Qed.

Lemma C39_whitelist_refuted_proof :
  (~ forall s (re : regex), is_japanese_with_whitelist s (Some re) = true <->
       s <> [] /\ forall c, In c s -> S_japanese c \/ re [c] = true) /\
  (~ forall s (re : regex), is_romaji_with_whitelist s (Some re) = true <->
       s <> [] /\ forall c, In c s -> S_romaji c \/ re [c] = true).
Proof.
  split; [exact C39_refuted_holds|]. intro H. specialize (H (u "あか") (re_contains (u "あ"))).
  assert (X : is_romaji_with_whitelist (u "あか") (Some (re_contains (u "あ"))) = true) by (vm_compute; reflexivity).
  apply H in X. destruct X as [_ X]. specialize (X (ch "か") ltac:(vm_compute; auto)).
  destruct X as [X|X]; [|vm_compute in X; discriminate]. apply romaji_spec in X. vm_compute in X. discriminate.
Qed.

Lemma C56_letters_proof :
  forall c : N,
  (is_char_latin_number c = true <-> between 0x30 0x39 c) /\
  (is_char_upper_case c = true <-> upper_letter c) /\
  (is_char_long_dash c = true <-> c = ch "ー") /\
  (is_char_slash_dot c = true <-> c = ch "・") /\
  (forall y, is_char_vowel_opt c y = true <-> In c (u "aeiou") \/ (y = true /\ c = ch "y")) /\
  is_char_vowel c = is_char_vowel_opt c true /\
  (forall y, is_char_consonant c y = true <->
     lower_letter c /\ ~ In c (u "aeiou") /\ (c = ch "y" -> y = true)) /\
  (forall y, lower_letter c <-> is_char_vowel_opt c y || is_char_consonant c (negb y) = true) /\
  (forall y, is_char_vowel_opt c y && is_char_consonant c (negb y) = false).
Proof.
  intro c. assert (V : forall y, is_char_vowel_opt c y = true <-> In c (u "aeiou") \/ (y = true /\ c = ch "y")).
  { intro y. unfold is_char_vowel_opt, char_in. change (u "aeiou") with [0x61; 0x65; 0x69; 0x6F; 0x75].
    change (ch "y") with 0x79. destruct y; cbn [existsb In]; rewrite ?andb_true_r, ?andb_false_r; ifs; lia. }
  assert (C : forall y, is_char_consonant c y = true <-> lower_letter c /\ ~ In c (u "aeiou") /\ (c = ch "y" -> y = true)).
  { intro y. unfold is_char_consonant, char_in, lower_letter. change (u "aeiou") with [0x61; 0x65; 0x69; 0x6F; 0x75].
    change (ch "y") with 0x79. 
    match goal with |- context [u ?x] => let l := eval vm_compute in (u x) in change (u x) with l end.
    destruct y; cbn [existsb In]; rewrite ?andb_true_r, ?andb_false_r; ifs; lia. }
  split; [apply latin_number_spec|]. split; [unfold is_char_upper_case, is_char_in_range, upper_letter, UPPERCASE_START, UPPERCASE_END; lia|].
  split; [unfold is_char_long_dash, PROLONGED_SOUND_MARK; change (ch "ー") with 0x30FC; lia|].
  split; [unfold is_char_slash_dot, KANA_SLASH_DOT; change (ch "・") with 0x30FB; lia|].
  split; [exact V|]. split; [reflexivity|]. split; [exact C|].
  assert (B : forall b : bool, b = false <-> ~ b = true) by (intros []; intuition congruence).
  split; intro y; [rewrite orb_true_iff|rewrite B, andb_true_iff]; rewrite V, C;
    change (u "aeiou") with [0x61; 0x65; 0x69; 0x6F; 0x75]; change (ch "y") with 0x79; unfold lower_letter; cbn [In];
    destruct y; cbn [negb]; intuition (try congruence; try lia).
Qed.
