(** * Proofs of the theorems of Props_Totality.v *)
From Verif Require Import Base Tac Std Strings Convert Tokenize Chunk KanaPure RomajiPure
  ScriptProofs TrimProofs ChunkProofs.

Lemma C01_to_kana_total_proof :
  forall E, std_ok E -> forall s,
    (forall o, exists t, to_kana_with_opt E s o = Ok t) /\
    (exists t, to_kana E s = Ok t) /\
    to_kana E s = to_kana_with_opt E s default_options.
Proof.
  intros E HE s. unfold to_kana. repeat split; intros; rewrite to_kana_with_opt_eq by exact HE; eauto.
Qed.

Lemma C02_script_conversions_total_proof :
  forall E, std_ok E -> forall s,
    (forall o, exists t, to_hiragana_with_opt E s o = Ok t) /\
    (forall o, exists t, to_katakana_with_opt E s o = Ok t) /\
    to_hiragana E s = to_hiragana_with_opt E s default_options /\
    to_katakana E s = to_katakana_with_opt E s default_options.
Proof.
  intros E HE s. repeat split; intros;
    first [rewrite to_hiragana_with_opt_eq by exact HE | rewrite to_katakana_with_opt_eq by exact HE]; eauto.
Qed.

Lemma C03_to_romaji_total_proof :
  forall E, std_ok E -> forall s,
    (forall o, exists t, to_romaji_with_opt E s o = Ok t) /\
    to_romaji E s = to_romaji_with_opt E s default_options.
Proof.
  intros E HE s. repeat split; intros; rewrite to_romaji_with_opt_eq by exact HE; eauto.
Qed.

Lemma C04_trim_and_chunk_proof :
  (forall s b m, exists r, trim_okurigana_with_opt s b m = Ok r) /\
  (forall s, trim_okurigana s = trim_okurigana_with_opt s false None) /\
  (forall s start stop, get_chunk s start stop = Panic <-> (stop < start < length s)%nat) /\
  (forall s start stop, ~ (stop < start < length s)%nat -> exists r, get_chunk s start stop = Ok r).
Proof.
  split; [exact trim_total|]. split; [reflexivity|]. split; intros s a b; rewrite get_chunk_eq.
  - destruct (Nat.ltb_spec a (length s)), (Nat.ltb_spec b a); cbn [andb]; split;
      intros; try discriminate; try reflexivity; lia.
  - intros N. destruct (Nat.ltb_spec a (length s)), (Nat.ltb_spec b a); cbn [andb]; eauto. lia.
Qed.
