(** * Proofs of the theorems of Props_Order.v *)
From Verif Require Import Tac Base Std StdInstances Chars Strings Convert KanaPure RomajiPure Predicates ScriptSpec ScriptProofs RomajiProofs Utf8Proofs Json InKatakanaSpec OrderSpec Order.

Lemma low_scalar c : c <= 0x9FAF -> is_scalar c = true.
Proof. intro H. apply is_scalar_spec. lia. Qed.

Lemma C110_katakana_proof :
  forall P : N -> Prop, (forall c, P c -> is_scalar c = true) ->
    ((forall s t s' t', over P s -> over P t -> hiragana_to_katakana s = Ok s' -> hiragana_to_katakana t = Ok t' ->
        text_lt s t -> text_lt s' t')
     <-> ~ exists x y, P x /\ P y /\ hira_letter x /\ 0x3096 < y <= x + 96).
Proof.
  intros P V. rewrite <- (h2k_order P V). split.
  - intros H s t S T. apply (H s t); auto using hiragana_to_katakana_ok.
  - intros H s t s' t' S T. rewrite !hiragana_to_katakana_ok. intros [= <-] [= <-]. now apply H.
Qed.

Lemma C110_hiragana_proof :
  forall E, std_ok E -> forall s t s' t', over (fun c => 0x30A1 <= c <= 0x30F4) s -> over (fun c => 0x30A1 <= c <= 0x30F4) t ->
    katakana_to_hiragana E s = Ok s' -> katakana_to_hiragana E t = Ok t' -> (text_lt s' t' <-> text_lt s t).
Proof.
  intros E HE s t s' t' S T. unfold katakana_to_hiragana. rewrite !katakana_to_hiragana_with_opt_eq by exact HE. intros [= <-] [= <-]. now apply k2h_order.
Qed.

Lemma C110_not_kept_proof :
  forall E, std_ok E ->
    (exists s t s' t', katakana_to_hiragana E s = Ok s' /\ katakana_to_hiragana E t = Ok t' /\ text_lt s t /\ text_lt t' s')
    /\ (exists s t s' t', over hira_letter s /\ over hira_letter t /\ to_romaji E s = Ok s' /\ to_romaji E t = Ok t' /\ text_lt s t /\ text_lt t' s')
    /\ (exists s t s' t', to_kana E s = Ok s' /\ to_kana E t = Ok t' /\ text_lt s t /\ text_lt t' s').
Proof.
  intros E HE.
  assert (Z : forall a b, bytes_compare (encode a) (encode b) = Lt -> text_lt a b) by (intros a b; apply lex_compare).
  split; [|split].
  - exists (u "コク"), (u "コー"), (u "こく"), (u "こう"). unfold katakana_to_hiragana. rewrite !katakana_to_hiragana_with_opt_eq by exact HE.
    split; [reflexivity|]. split; [|split; apply Z; reflexivity]. rewrite (k2h_indep E std_1_82) by (auto using std_1_82_ok; vm_compute; intuition discriminate). vm_compute. reflexivity.
  - exists (u "く"), (u "け"), (u "ku"), (u "ke"). split; [repeat constructor; discriminate|]. split; [repeat constructor; discriminate|].
    unfold to_romaji. rewrite !to_romaji_with_opt_eq, !(rom_indep E std_1_82) by (auto using std_1_82_ok; vm_compute; intuition discriminate).
    split; [vm_compute; reflexivity|]. split; [vm_compute; reflexivity|]. split; apply Z; reflexivity.
  - exists (u "ke"), (u "ku"), (u "け"), (u "く"). unfold to_kana. rewrite !to_kana_with_opt_eq by exact HE.
    split; [vm_compute; reflexivity|]. split; [vm_compute; reflexivity|]. split; apply Z; reflexivity.
Qed.
