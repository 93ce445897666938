(** * Proofs of the theorems of Props_Table.v *)
From Verif Require Import Tac Base Std Convert KanaSpec KanaDict RomajiTree RomajiSpec Table TableSpec TableProofs.



Lemma C101_kana_proof :
  forall E, std_ok E -> forall o,
    (forall s, to_kana_in (tree_of (mode_of o)) E s = to_kana_with_opt E s o) /\
    (forall k v, entry (mode_of o) k v ->
       to_kana_with_opt E k o = Ok v /\
       exists w, to_kana_in (without k (tree_of (mode_of o))) E k = Ok w /\ w <> v).
Proof.
  intros E HE o. split; [intro s; now apply kana_same|]. intros k v. now apply kana_needed.
Qed.

Lemma C101_romaji_proof :
  forall E, std_ok E -> forall o,
    (forall s, to_romaji_in TO_ROMAJI_NODE_TREE E s o = to_romaji_with_opt E s o) /\
    (forall k, is_key k -> ~ In (ch "ゔ") k ->
       ((forall s, no_v s -> to_romaji_in (cut k TO_ROMAJI_NODE_TREE) E s o = to_romaji_with_opt E s o)
        <-> dead (upcase_katakana o) k)).
Proof.
  intros E HE o. split; [intro s; now apply romaji_same|]. intros k. now apply entry_iff.
Qed.

Lemma C101_all_at_once_proof :
  forall E, std_ok E -> forall o w l, ~ In (ch "ゔ") l ->
    ((forall s, no_v s -> to_romaji_in (thin w l) E s o = to_romaji_with_opt E s o) <-> drops (upcase_katakana o) l).
Proof.
  intros E HE o w l. now apply thin_iff.
Qed.
