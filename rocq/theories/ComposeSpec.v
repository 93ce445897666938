(** * One conversion after another (C83) *)
From Verif Require Import Base KanaSpec Predicates ScriptSpec TokenSpec.

(** a long mark stands after a hiragana letter, with nothing but marks, ・, ヵ and ヶ in between:
    in katakana it would lengthen that letter *)
Definition mark_after_hiragana (s : str) : Prop := exists x c run y, s = x ++ c :: run ++ long_mark :: y /\
  hiragana_letter c /\ Forall (fun d => In d (u "ー・ヵヶ")) run.

(** a long mark lengthens a letter of the o row; ヴ counts if it is read [vo] *)
Definition lengthens_o (rv : str) (s : str) : Prop := exists x k y, s = x ++ long_mark :: y /\ lengthens x k /\
  (In k (u "ォオコゴソゾトドノホボポモョヨロヲヺ") \/ (k = ch "ヴ" /\ rv = u "vo")).

(** the script conversions convert no romaji in the text *)
Definition kana_only (pass : bool) (s : str) : Prop :=
  pass = true \/ (~ has S_romaji s /\ ~ starts_with_punct s).
