(** * Proofs of the theorems of Props_Ways.v *)
From Coq Require Import PeanoNat.
From Verif Require Import Tac Base Std Chars Trees Convert KanaSpec KanaDict Predicates TokenSpec Ways WaysRom.



Lemma C102_kana_proof :
  forall E, std_ok E -> forall o r,
    exists l, NoDup l /\ (forall s, In s l <-> to_kana_with_opt E s o = Ok r)
      /\ (length l <= 45 ^ length r)%nat
      /\ (length l = (45 ^ length r)%nat <-> r = repeat (ch "っ") (length r)).
Proof.
  intros E HE o r. exact (kana_ways E o r HE).
Qed.

Lemma C102_romaji_proof :
  forall E, std_ok E -> forall o s n,
    to_romaji_with_opt E (s ++ repeat (ch "っ") n) o = to_romaji_with_opt E s o.
Proof.
  intros E HE o s n. exact (rom_tsus E o s n HE).
Qed.

Lemma C102_hiragana_proof :
  forall E, std_ok E -> forall o s n, Forall S_kana s \/ pass_romaji o = true ->
    to_hiragana_with_opt E (s ++ ch "ン" :: repeat (ch "ー") n) o = to_hiragana_with_opt E (s ++ [ch "ン"]) o.
Proof.
  intros E HE o s n. exact (hira_n E o s n HE).
Qed.

Lemma C102_katakana_proof :
  forall E, std_ok E -> forall o r, pass_romaji o = true ->
    exists l, NoDup l /\ (forall s, In s l <-> to_katakana_with_opt E s o = Ok r)
      /\ (l <> [] <-> (forall c, In c r -> ~ 0x3041 <= c <= 0x3096))
      /\ (length l <= 2 ^ length r)%nat
      /\ (length l = (2 ^ length r)%nat <-> (forall c, In c r -> 0x30A1 <= c <= 0x30F6)).
Proof.
  intros E HE o r P. exact (kata_ways E o r HE P).
Qed.
