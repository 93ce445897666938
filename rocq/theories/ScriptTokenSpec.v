(** * Converting to hiragana and katakana token by token (C88, C89) *)
From Verif Require Import Base KanaSpec Predicates KanaJoinSpec.

(** no n that begins a key stands before an apostrophe or, in IME mode, before a space *)
Definition n_apart (m : mode) (s : str) : Prop :=
  forall x d y, s = x ++ d :: y -> open_n m x -> d <> ch "'" /\ ~ (m = Ime /\ d = ch " ").

(** there are no upper-case letters in the text but romaji ([lower]: conversion to lower case) *)
Definition others_lower (lower : str -> str) (s : str) : Prop :=
  forall c, In c s -> ~ S_romaji c -> lower [c] = [c].
