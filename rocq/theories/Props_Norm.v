(** * C106: kana written with combining voicing marks

    [decompose s] is [s] with every が written か and U+3099, as in Unicode NFD; it is what another system makes of the same text. *)
From Verif Require Import Base Std StdInstances Chars Strings Tokenize Convert Predicates KanaSpec ScriptSpec NormSpec Results_Norm.

(** C106.  to_kana treats a text and its decomposition alike: the results have the same decomposition. *)
Theorem C106_kana :
  forall E, std_ok E -> forall o s t1 t2,
    to_kana_with_opt E s o = Ok t1 -> to_kana_with_opt E (decompose s) o = Ok t2 -> decompose t2 = decompose t1.
Proof. exact C106_kana_proof. Qed.
Print Assumptions C106_kana.

Example C106_kana_case :
  std_ok std_1_82
  /\ decompose (u "gaがーkyパ") = u "gaか" ++ [voicing] ++ u "ーkyハ" ++ [semivoicing]
  /\ to_kana_with_opt std_1_82 (u "gaがーkyパ") default_options = Ok (u "ががーkyパ")
  /\ to_kana_with_opt std_1_82 (decompose (u "gaがーkyパ")) default_options = Ok (u "がか" ++ [voicing] ++ u "ーkyハ" ++ [semivoicing]).
Proof. split; [exact std_1_82_ok|]. vm_compute. repeat split. Qed.
(** the table: 27 hiragana, 31 katakana; all but ゔ, ヴ and ヷヸヹヺ stand next to or one after their first character *)
Example C106_table_case :
  length composed = 58%nat
  /\ filter (fun e => negb (existsb (fun d => fst e =? d) (match snd e with [b; v] => [b + 1; b + 2] | _ => [] end))) composed
     = [(ch "ゔ", u "う" ++ [voicing]); (ch "ヴ", u "ウ" ++ [voicing]); (ch "ヷ", u "ワ" ++ [voicing]); (ch "ヸ", u "ヰ" ++ [voicing]);
        (ch "ヹ", u "ヱ" ++ [voicing]); (ch "ヺ", u "ヲ" ++ [voicing])].
Proof. vm_compute. split; reflexivity. Qed.

(** C106.  So does to_katakana (a text with capital sigma, whose lower case depends on its context, only if romaji is passed), and
    hiragana_to_katakana commutes with decomposing. *)
Theorem C106_katakana :
  forall E, std_ok E -> forall o s,
    (exists t, hiragana_to_katakana s = Ok t /\ hiragana_to_katakana (decompose s) = Ok (decompose t))
    /\ (forall t1 t2, (pass_romaji o = true \/ ~ In SIGMA s) ->
          to_katakana_with_opt E s o = Ok t1 -> to_katakana_with_opt E (decompose s) o = Ok t2 -> decompose t2 = decompose t1).
Proof. exact C106_katakana_proof. Qed.
Print Assumptions C106_katakana.

Example C106_katakana_case :
  std_ok std_1_82 /\ ~ In SIGMA (u "GAがっこう")
  /\ to_katakana_with_opt std_1_82 (u "GAがっこう") default_options = Ok (u "ガガッコウ")
  /\ to_katakana_with_opt std_1_82 (decompose (u "GAがっこう")) default_options = Ok (u "ガカ" ++ [voicing] ++ u "ッコウ").
Proof. split; [exact std_1_82_ok|]. split; [vm_compute; intuition discriminate|]. vm_compute. repeat split. Qed.

(** C106.  to_hiragana does so exactly on the texts in which no mark ー lengthens a voiced katakana and ヷヸヹヺ do not occur, and on
    those whose katakana it leaves because they start with a punctuation mark (‘) and are not mixed. *)
Theorem C106_hiragana :
  forall E, std_ok E -> forall o s t1 t2, (pass_romaji o = true \/ ~ In SIGMA s) ->
    to_hiragana_with_opt E s o = Ok t1 -> to_hiragana_with_opt E (decompose s) o = Ok t2 ->
    (decompose t2 = decompose t1 <-> safe_katakana s \/ (pass_romaji o = false /\ starts_with_punct s /\ ~ mixed_text s)).
Proof. exact C106_hiragana_proof. Qed.
Print Assumptions C106_hiragana.

Example C106_hiragana_case :
  std_ok std_1_82
  /\ to_hiragana_with_opt std_1_82 (u "ガム") default_options = Ok (u "がむ")
  /\ to_hiragana_with_opt std_1_82 (decompose (u "ガム")) default_options = Ok (u "か" ++ [voicing] ++ u "む")
  /\ to_hiragana_with_opt std_1_82 (u "ガード") default_options = Ok (u "があど")
  /\ to_hiragana_with_opt std_1_82 (decompose (u "ガード")) default_options = Ok (u "か" ++ [voicing] ++ u "ーと" ++ [voicing])
  /\ to_hiragana_with_opt std_1_82 (u "ヷ") default_options = Ok (u "わ")
  /\ to_hiragana_with_opt std_1_82 (decompose (u "ヷ")) default_options = Ok (u "わ" ++ [voicing])
  /\ to_hiragana_with_opt std_1_82 (u "‘ガード") default_options = Ok (u "「ガード").
Proof. split; [exact std_1_82_ok|]. vm_compute. repeat split. Qed.

(** C106.  to_romaji never reads a combining mark: the result has as many of them as the text, so that a text and its
    decomposition have the same romaji exactly if there is nothing to decompose. *)
Theorem C106_romaji :
  forall E, std_ok E -> forall o s t, to_romaji_with_opt E s o = Ok t ->
    length (filter (fun c => (c =? voicing) || (c =? semivoicing)) t) = length (filter (fun c => (c =? voicing) || (c =? semivoicing)) s)
    /\ (to_romaji_with_opt E (decompose s) o = Ok t <-> forall c, In c s -> ~ is_composed c).
Proof. exact C106_romaji_proof. Qed.
Print Assumptions C106_romaji.

Example C106_romaji_case :
  std_ok std_1_82 /\ to_romaji_with_opt std_1_82 (u "がっこう") default_options = Ok (u "gakkou")
  /\ to_romaji_with_opt std_1_82 (decompose (u "がっこう")) default_options = Ok (u "ka" ++ [voicing] ++ u "kkou")
  /\ to_romaji_with_opt std_1_82 (decompose (u "きょう")) default_options = Ok (u "kyou").
Proof. split; [exact std_1_82_ok|]. vm_compute. repeat split. Qed.

(** C106.  is_romaji, is_japanese, is_kanji, contains_kanji and is_mixed give the same answer on the decomposition; is_hiragana,
    is_katakana and is_kana accept it exactly if they accept the text and there is nothing to decompose. *)
Theorem C106_predicates :
  forall s,
    is_romaji (decompose s) = is_romaji s /\ is_japanese (decompose s) = is_japanese s
    /\ is_kanji (decompose s) = is_kanji s /\ contains_kanji (decompose s) = contains_kanji s
    /\ (forall b, is_mixed_pass_kanji (decompose s) b = is_mixed_pass_kanji s b)
    /\ (forall f, In f [is_hiragana; is_katakana; is_kana] ->
          (f (decompose s) = true <-> f s = true /\ forall c, In c s -> ~ is_composed c)).
Proof. exact C106_predicates_proof. Qed.
Print Assumptions C106_predicates.

Example C106_predicates_case :
  is_japanese (decompose (u "ガード")) = true /\ is_katakana (u "ガード") = true /\ is_katakana (decompose (u "ガード")) = false
  /\ is_kana (decompose (u "きょう")) = true /\ is_mixed_pass_kanji (decompose (u "がga")) true = true.
Proof. vm_compute. repeat split. Qed.

(** C106.  The compact tokens of the decomposition are the decompositions of the tokens; the detailed ones are exactly if no kana but
    the iteration marks ゞ and ヾ is decomposed (the marks have the type of other Japanese characters). *)
Theorem C106_tokens :
  forall s,
    tokenize_with_opt (decompose s) true = map decompose (tokenize_with_opt s true)
    /\ (tokenize_with_opt (decompose s) false = map decompose (tokenize_with_opt s false) <->
        forall c, In c s -> is_composed c -> c = ch "ゞ" \/ c = ch "ヾ").
Proof. exact C106_tokens_proof. Qed.
Print Assumptions C106_tokens.

Example C106_tokens_case :
  tokenize_with_opt (decompose (u "食べるgame")) true = map decompose [u "食べる"; u "game"]
  /\ tokenize_with_opt (u "食べる") false = [u "食"; u "べる"]
  /\ tokenize_with_opt (decompose (u "食べる")) false = [u "食"; u "へ"; [voicing]; u "る"]
  /\ tokenize_with_opt (decompose (u "いすゞ")) false = map decompose [u "いす"; u "ゞ"].
Proof. vm_compute. repeat split. Qed.
