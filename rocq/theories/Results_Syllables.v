(** * Proofs of the theorems of Props_Syllables.v *)
From Verif Require Import Tac Base Std StdInstances Chars Strings Convert KanaPure RomajiPure KanaSpec KanaDict KanaProofs
  Predicates ScriptSpec ScriptProofs RomajiProofs SyllablesSpec Syllables.

Lemma C111_sounded s : forallb (fun c => hira_b c || kata_b c) s = true -> Forall sounded s.
Proof. rewrite forallb_forall, Forall_forall. intros H c I. apply sounded_b. now apply orb_prop, H. Qed.

Lemma C111_syllables_proof :
  forall E, std_ok E -> forall o s t, Forall sounded s -> to_romaji_with_opt E s o = Ok t ->
    syllabic (map ascii_lower t) /\ (upcase_katakana o = false -> map ascii_lower t = t).
Proof.
  intros E HE o s t S. rewrite to_romaji_with_opt_eq by exact HE. intros [= <-].
  destruct (romaji_words E (upcase_katakana o) s HE S) as [W L].
  change (map ascii_lower) with low. rewrite L. split; [exact W|]. now intros ->.
Qed.

Lemma C111_each_proof :
  forall E, std_ok E -> forall o w, In w syllables -> hd_error w <> Some (ch "v") ->
    exists s, Forall sounded s /\ to_romaji_with_opt E s o = Ok w.
Proof.
  intros E HE o w I V. destruct (syllable_kana E w (upcase_katakana o) HE I V) as (s & S & Q). exists s. split; [exact S|].
  rewrite to_romaji_with_opt_eq by exact HE. f_equal. exact Q.
Qed.
