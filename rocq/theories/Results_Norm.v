(** * Proofs of the theorems of Props_Norm.v *)
From Verif Require Import Tac Base Std StdInstances Chars Strings Tokenize Convert KanaPure RomajiPure KanaSpec KanaDict KanaProofs
  Predicates ScriptSpec ScriptProofs NormSpec Norm NormHira NormText.

Lemma C106_kana_proof :
  forall E, std_ok E -> forall o s t1 t2,
    to_kana_with_opt E s o = Ok t1 -> to_kana_with_opt E (decompose s) o = Ok t2 -> decompose t2 = decompose t1.
Proof.
  intros E HE o s t1 t2. rewrite !to_kana_with_opt_eq by exact HE. intros [= <-] [= <-]. rewrite k_tree_mode. exact (dec_conv (mode_of o) s []).
Qed.

Lemma C106_katakana_proof :
  forall E, std_ok E -> forall o s,
    (exists t, hiragana_to_katakana s = Ok t /\ hiragana_to_katakana (decompose s) = Ok (decompose t))
    /\ (forall t1 t2, (pass_romaji o = true \/ ~ In SIGMA s) ->
          to_katakana_with_opt E s o = Ok t1 -> to_katakana_with_opt E (decompose s) o = Ok t2 -> decompose t2 = decompose t1).
Proof.
  intros E HE o s. split.
  - exists (h2k s). rewrite !hiragana_to_katakana_ok, dec_h2k. auto.
  - intros t1 t2 H. rewrite !to_katakana_with_opt_eq by exact HE. intros [= <-] [= <-]. now apply dec_kata.
Qed.

Lemma C106_hiragana_proof :
  forall E, std_ok E -> forall o s t1 t2, (pass_romaji o = true \/ ~ In SIGMA s) ->
    to_hiragana_with_opt E s o = Ok t1 -> to_hiragana_with_opt E (decompose s) o = Ok t2 ->
    (decompose t2 = decompose t1 <-> safe_katakana s \/ (pass_romaji o = false /\ starts_with_punct s /\ ~ mixed_text s)).
Proof.
  intros E HE o s t1 t2 H. rewrite !to_hiragana_with_opt_eq by exact HE. intros [= <-] [= <-]. now apply dec_hira.
Qed.

Lemma C106_romaji_proof :
  forall E, std_ok E -> forall o s t, to_romaji_with_opt E s o = Ok t ->
    length (filter (fun c => (c =? voicing) || (c =? semivoicing)) t) = length (filter (fun c => (c =? voicing) || (c =? semivoicing)) s)
    /\ (to_romaji_with_opt E (decompose s) o = Ok t <-> forall c, In c s -> ~ is_composed c).
Proof.
  intros E HE o s t H. split; [exact (to_romaji_marks E o s t HE H)|]. rewrite <- dec_same. now apply dec_romaji_same.
Qed.

Lemma C106_predicates_proof :
  forall s,
    is_romaji (decompose s) = is_romaji s /\ is_japanese (decompose s) = is_japanese s
    /\ is_kanji (decompose s) = is_kanji s /\ contains_kanji (decompose s) = contains_kanji s
    /\ (forall b, is_mixed_pass_kanji (decompose s) b = is_mixed_pass_kanji s b)
    /\ (forall f, In f [is_hiragana; is_katakana; is_kana] ->
          (f (decompose s) = true <-> f s = true /\ forall c, In c s -> ~ is_composed c)).
Proof.
  intros s. rewrite dec_romaji, dec_japanese. destruct (dec_kanji s) as [-> ->]. do 4 (split; [reflexivity|]). split; [apply dec_mixed|].
  intros f F. rewrite <- dec_same. destruct F as [<-|[<-|[<-|[]]]]; apply dec_strict; reflexivity.
Qed.

Lemma C106_tokens_proof :
  forall s,
    tokenize_with_opt (decompose s) true = map decompose (tokenize_with_opt s true)
    /\ (tokenize_with_opt (decompose s) false = map decompose (tokenize_with_opt s false) <->
        forall c, In c s -> is_composed c -> c = ch "ゞ" \/ c = ch "ヾ").
Proof.
  intros s. split; [apply dec_compact|apply dec_detailed].
Qed.
