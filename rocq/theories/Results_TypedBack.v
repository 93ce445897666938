(** * Proofs of the theorems of Props_TypedBack.v *)
From Verif Require Import Tac Base Std StdInstances Chars Strings Convert KanaPure RomajiPure KanaSpec KanaDict KanaProofs
  Predicates ScriptSpec ScriptProofs RomajiProofs CompleteSpec Complete SyllablesSpec Syllables Results_Syllables RomajiComplete TypedBackSpec TypedBack TchText.



Lemma C112_typed_back_proof :
  forall E, std_ok E -> forall o o' s t r, Forall sounded s -> imemode o' = false \/ use_obsolete_kana o' = true ->
    to_romaji_with_opt E s o = Ok t -> to_kana_with_opt E t o' = Ok r ->
    (is_kana r = true <-> ~ only_tsu s /\ ~ tch_text s)
    /\ ((exists a b, map ascii_lower t = a ++ u "tch" ++ b) <-> tch_text s).
Proof.
  intros E HE o o' s t r S M T R. destruct (complete_text E o' t HE) as (r' & R' & K). rewrite R in R'. injection R' as <-. rewrite K.
  destruct (romaji_complete E o s HE) as (t' & T' & Z & _). rewrite T in T'. injection T' as <-. rewrite <- Z.
  rewrite to_romaji_with_opt_eq in T by exact HE. injection T as <-. rewrite (typed_back E o o' s HE S M).
  pose proof (romaji_tch E (upcase_katakana o) s HE S) as X. rewrite pat_spec in X. rewrite X. split; [reflexivity|exact X].
Qed.
