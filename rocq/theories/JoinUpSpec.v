(** * Romanising in parts with [upcase_katakana] (C75, C76) *)
From Verif Require Import Base KanaSpec ScriptSpec JoinSpec.

(** After hiragana っ, katakana whose consonant is not doubled: っ and the kana are one key of
    the table, which is not all katakana, so the kana loses its upper case. *)
Definition undoubled : str := u "あいうえおぁぃぅぇぉなにぬねのやゆよゃゅょん".
Definition mixes (x y : str) : Prop :=
  (exists x', x = x' ++ [ch "っ"]) /\
  exists c b y', y = c :: y' /\ katakana_letter c /\ hiragana_for c b /\ In b undoubled /\
    (b = ch "に" -> forall d z, y' = d :: z -> ~ In d smalls).
