(** * Proofs of the theorems of Props_Composed.v *)
From Verif Require Import Tac Base Std StdInstances Chars Strings Convert KanaPure RomajiPure KanaSpec KanaDict KanaProofs
  Predicates ScriptSpec ScriptProofs RomajiProofs NormSpec Norm ComposedSpec Composed.

Lemma ok_inj (a b : str) : Ok a = Ok b -> a = b.
Proof. now intros [=]. Qed.

Lemma C108_kana_proof :
  forall E, std_ok E -> forall o s t, to_kana_with_opt E s o = Ok t ->
    (in_composed_form t <-> forall a v b p x, s = a ++ v :: b -> to_kana_with_opt E a o = Ok (p ++ [x]) -> ~ composes x v).
Proof.
  intros E HE o s t. rewrite to_kana_with_opt_eq by exact HE. intros [= <-]. rewrite k_tree_mode. change (in_composed_form (conv (mode_of o) s) <-> forall a v b p x, s = a ++ v :: b -> to_kana_with_opt E a o = Ok (p ++ [x]) -> ~ composes x v).
  rewrite conv_composed. split; intros H a v b p x Q R; apply (H a v b p x Q).
  - rewrite to_kana_with_opt_eq, k_tree_mode in R by exact HE. exact (ok_inj _ _ R).
  - rewrite to_kana_with_opt_eq, k_tree_mode by exact HE. f_equal. exact R.
Qed.

Lemma C108_hiragana_proof :
  forall E, std_ok E -> forall o s t, pass_romaji o = true -> to_hiragana_with_opt E s o = Ok t ->
    katakana_to_hiragana E s = Ok t
    /\ (in_composed_form t <-> forall a v b p x, s = a ++ v :: b -> katakana_to_hiragana E a = Ok (p ++ [x]) -> ~ composes x v).
Proof.
  intros E HE o s t P. unfold to_hiragana_with_opt. rewrite P. intros R. split; [exact R|]. revert R.
  unfold katakana_to_hiragana. rewrite katakana_to_hiragana_with_opt_eq by exact HE. intros [= <-]. rewrite k2h_composed.
  split; intros H a v b p x Q R; apply (H a v b p x Q).
  - rewrite katakana_to_hiragana_with_opt_eq in R by exact HE. exact (ok_inj _ _ R).
  - rewrite katakana_to_hiragana_with_opt_eq by exact HE. f_equal. exact R.
Qed.

Lemma C108_katakana_proof :
  forall s t, hiragana_to_katakana s = Ok t ->
    (in_composed_form t <-> in_composed_form s /\ forall a b r, s = a ++ b :: voicing :: r -> ~ In b (u "わゐゑを")).
Proof.
  intros s t. rewrite hiragana_to_katakana_ok. intros [= <-]. apply h2k_composed.
Qed.

Lemma C108_romaji_proof :
  forall E, std_ok E -> forall o s t, to_romaji_with_opt E s o = Ok t ->
    (in_composed_form t <-> forall a x w b, s = a ++ x :: w ++ voicing :: b -> In x (u "ゝヽ") -> to_romaji_with_opt E w o <> Ok []).
Proof.
  intros E HE o s t. rewrite to_romaji_with_opt_eq by exact HE. intros [= <-]. rewrite romaji_exact by exact HE.
  split; intros H a x w b Q I R; apply (H a x w b Q I).
  - rewrite to_romaji_with_opt_eq in R by exact HE. exact (ok_inj _ _ R).
  - rewrite to_romaji_with_opt_eq by exact HE. f_equal. exact R.
Qed.
