(** * Converting to katakana and hiragana in parts (C91, C92) *)
From Verif Require Import Base Convert KanaSpec Predicates ScriptSpec KanaJoinSpec.

(** no key begins in [t], which is followed by [y], but for an n before y (the beginning of nya) *)
Definition spared (m : mode) (t y : str) : Prop :=
  forall x b k v r, t ++ y = x ++ b ++ r -> (length x < length t)%nat -> casing b k -> entry m k v ->
    k = u "n" /\ exists c r', r = c :: r' /\ y_letter c.

(** The parts of a text that is read as a whole give the same alone: no letter changes its lower
    case ([lower]) at the end of a part, no key goes over the end of a part that is read, and the
    parts that are not read have no upper case and no key in them *)
Definition in_parts (m : mode) (lower : str -> str) (read : str -> Prop) (ts : list str) : Prop :=
  lower (concat ts) = concat (map lower ts) /\
  forall pre t post, ts = pre ++ t :: post ->
    (read t -> ~ joins m (concat (map lower (pre ++ [t]))) (concat (map lower post))) /\
    (~ read t -> lower t = t /\ spared m t (concat (map lower post))).

(** no long mark of a part lengthens a letter of an earlier part *)
Definition marks_apart (ts : list str) : Prop :=
  forall pre t post, ts = pre ++ t :: post ->
    ~ exists y z k, t = y ++ long_mark :: z /\ lengthens (concat pre ++ y) k /\ ~ exists k', lengthens y k'.

(** the texts that to_katakana and to_hiragana read (without [pass_romaji]) *)
Definition katakana_reads (s : str) : Prop := all_nonempty S_romaji s \/ mixed_text s.
Definition hiragana_reads (s : str) : Prop := all_nonempty S_romaji s \/ starts_with_punct s.
(** the options with [pass_romaji] set: to_hiragana then only converts katakana *)
Definition passing (o : options) : options :=
  {| use_obsolete_kana := use_obsolete_kana o; pass_romaji := true;
     upcase_katakana := upcase_katakana o; imemode := imemode o |}.
