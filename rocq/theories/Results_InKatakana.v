(** * Proofs of the theorems of Props_InKatakana.v *)
From Verif Require Import Tac Base Std Chars Strings Tokenize Convert KanaPure Predicates TokenSpec InKatakanaSpec InKatakana.

Lemma h2k_list (ts us : list str) : Forall2 (fun a b => hiragana_to_katakana a = Ok b) ts us <-> us = map h2k ts.
Proof.
  split.
  - induction 1 as [|a b ts us H _ IH]; [reflexivity|]. rewrite hiragana_to_katakana_ok in H. injection H as <-. cbn. now rewrite IH.
  - intros ->. induction ts as [|a ts IH]; constructor; [apply hiragana_to_katakana_ok|exact IH].
Qed.

Lemma C109_compact_proof :
  forall s t, hiragana_to_katakana s = Ok t ->
    Forall2 (fun a b => fst a = fst b /\ hiragana_to_katakana (snd a) = Ok (snd b)) (tokenize_detailed s true) (tokenize_detailed t true).
Proof.
  intros s t. rewrite hiragana_to_katakana_ok. intros [= <-]. rewrite h2k_tokens_compact.
  induction (tokenize_detailed s true) as [|kt l IH]; constructor; [|exact IH]. split; [reflexivity|]. apply hiragana_to_katakana_ok.
Qed.

Lemma C109_tokens_proof :
  forall s t, hiragana_to_katakana s = Ok t ->
    (Forall2 (fun a b => hiragana_to_katakana a = Ok b) (tokenize s) (tokenize t) <-> scripts_apart s).
Proof.
  intros s t. rewrite hiragana_to_katakana_ok. intros [= <-]. rewrite h2k_list. apply h2k_tokens_same.
Qed.

Lemma C109_okurigana_proof :
  forall s t from_start r t', hiragana_to_katakana s = Ok t -> trim_okurigana_with_opt s from_start None = Ok r -> hiragana_to_katakana r = Ok t' ->
    (trim_okurigana_with_opt t from_start None = Ok t' <-> r = s \/ one_script_outside from_start s).
Proof.
  intros s t b r t'. rewrite !hiragana_to_katakana_ok. intros [= <-] R [= <-]. now apply trim_h2k.
Qed.

Lemma C109_matcher_proof :
  forall s m t m' from_start r t', (forall c, In c (s ++ m) -> ~ kata_letter c) ->
    hiragana_to_katakana s = Ok t -> hiragana_to_katakana m = Ok m' ->
    trim_okurigana_with_opt s from_start (Some m) = Ok r -> hiragana_to_katakana r = Ok t' ->
    trim_okurigana_with_opt t from_start (Some m') = Ok t'.
Proof.
  intros s m t m' b r t' K. rewrite !hiragana_to_katakana_ok. intros [= <-] [= <-] R [= <-].
  apply trim_h2k_matcher; [| |exact R]; intros c I; apply K; apply in_or_app; auto.
Qed.
