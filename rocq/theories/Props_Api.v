(** * C68: the public methods *)
From Verif Require Import Base Std StdInstances KanaDict Constants Strings Convert Traits TraitsSpec
  KanaSpec ScriptSpec RomajiSpec Predicates Results_Api.

(** C68.  The methods of the three public traits, with every option spelled out.  Each
    conversion is the relation that C05, C55, C61 and C62 describe, and without options it is
    the one with all options off.  Each predicate is one of the sets of C35, or says that
    text consists of it. *)
Theorem C68_public_methods :
  (forall E, std_ok E -> forall s,
    (forall t, str_to_kana E s = Ok t <-> converts Default s t) /\
    (forall t, str_to_hiragana E s = Ok t -> hiragana_conversion (to_lowercase E) Default false s t) /\
    (~ In (ch "ヴ") s -> forall t,
       hiragana_conversion (to_lowercase E) Default false s t -> str_to_hiragana E s = Ok t) /\
    (forall t, str_to_katakana E s = Ok t <-> katakana_conversion (to_lowercase E) Default false s t) /\
    (forall t, str_to_romaji E s = Ok t -> romaji_conversion false s t) /\
    (~ In (ch "ヴ") s -> ~ In (ch "ゔ") s -> forall t, romaji_conversion false s t -> str_to_romaji E s = Ok t) /\
    (forall o m, (use_obsolete_kana o = true -> m = Obsolete) ->
       (use_obsolete_kana o = false -> imemode o = true -> m = Ime) ->
       (use_obsolete_kana o = false -> imemode o = false -> m = Default) ->
       (forall t, str_to_kana_with_opt E s o = Ok t <-> converts m s t) /\
       (forall t, str_to_hiragana_with_opt E s o = Ok t ->
          hiragana_conversion (to_lowercase E) m (pass_romaji o) s t) /\
       (~ In (ch "ヴ") s -> forall t,
          hiragana_conversion (to_lowercase E) m (pass_romaji o) s t -> str_to_hiragana_with_opt E s o = Ok t) /\
       (forall t, str_to_katakana_with_opt E s o = Ok t <->
          katakana_conversion (to_lowercase E) m (pass_romaji o) s t)) /\
    (forall o t, str_to_romaji_with_opt E s o = Ok t -> romaji_conversion (upcase_katakana o) s t) /\
    (~ In (ch "ヴ") s -> ~ In (ch "ゔ") s -> forall o t,
       romaji_conversion (upcase_katakana o) s t -> str_to_romaji_with_opt E s o = Ok t)) /\
  (forall s,
    (str_is_hiragana s = true <-> all_nonempty S_hiragana s) /\
    (str_is_katakana s = true <-> all_nonempty S_katakana s) /\
    (str_is_kana s = true <-> all_nonempty (fun c => S_hiragana c \/ S_katakana c) s) /\
    (str_is_kanji s = true <-> all_nonempty S_kanji s) /\
    (str_contains_kanji s = true <-> has S_kanji s) /\
    (str_is_japanese s = true <-> all_nonempty S_japanese s) /\
    (str_is_romaji s = true <-> all_nonempty S_romaji s) /\
    (forall re : regex, str_is_japanese_with_whitelist s (Some re) = true <->
       s <> [] /\ ((forall c, In c s -> S_japanese c) \/ re s = true)) /\
    (str_is_japanese_with_whitelist s None = true <-> all_nonempty S_japanese s) /\
    (forall re : regex, str_is_romaji_with_whitelist s (Some re) = true <->
       s <> [] /\ ((forall c, In c s -> S_romaji c) \/ re s = true)) /\
    (str_is_romaji_with_whitelist s None = true <-> all_nonempty S_romaji s) /\
    (str_is_mixed s = true <-> mixed_text s) /\
    (str_is_mixed_pass_kanji s true = true <-> mixed_text s) /\
    (str_is_mixed_pass_kanji s false = true <-> mixed_text s /\ ~ has S_kanji s)) /\
  (forall c,
    (chr_is_hiragana c = true <-> S_hiragana c) /\
    (chr_is_katakana c = true <-> S_katakana c) /\
    (chr_is_kana c = true <-> S_hiragana c \/ S_katakana c) /\
    (chr_is_kanji c = true <-> S_kanji c) /\
    (chr_is_japanese c = true <-> S_japanese c) /\
    (chr_is_japanese_number c = true <-> S_ja_number c) /\
    (chr_is_japanese_punctuation c = true <-> S_ja_punct c)).
Proof. exact C68_public_methods_proof. Qed.
Print Assumptions C68_public_methods.

Example C68_case : str_to_kana std_1_82 (u "shin'YOU") = Ok (u "しんヨウ")
  /\ str_to_hiragana std_1_82 (u "KAスーKi") = Ok (u "かすうき")
  /\ str_to_katakana_with_opt std_1_82 (u "wiすし") (Build_options true false false false) = Ok (u "ヰスシ")
  /\ str_to_romaji_with_opt std_1_82 (u "ラーメンの味") (Build_options false false true false) = Ok (u "RAAMENno味")
  /\ str_is_mixed_pass_kanji (u "お腹A") true = true /\ str_is_mixed_pass_kanji (u "お腹A") false = false
  /\ str_is_romaji_with_whitelist (u "あか") (Some (re_contains (u "あ"))) = true
  /\ chr_is_japanese_number (ch "７") = true /\ chr_is_kana (ch "ｱ") = false.
Proof. vm_compute. auto 10. Qed.
