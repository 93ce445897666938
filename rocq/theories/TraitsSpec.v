(** * What the public methods do (C68) *)
From Verif Require Import Base Std Predicates KanaSpec ScriptSpec RomajiSpec.

(** The four conversions as relations, by the options that matter: [m] the dictionary, [pass]
    pass_romaji, [up] upcase_katakana, [lower] the library's lower-casing. *)
Inductive hiragana_conversion (lower : str -> str) (m : mode) (pass : bool) (s t : str) : Prop :=
| HC_pass : pass = true -> hiragana_text (u "う") [] s t -> hiragana_conversion lower m pass s t
| HC_mixed h : pass = false -> mixed_text s -> hiragana_text (u "う") [] s h -> converts m (lower h) t ->
    hiragana_conversion lower m pass s t
| HC_romaji : pass = false -> ~ mixed_text s -> all_nonempty S_romaji s \/ starts_with_punct s ->
    converts m (lower s) t -> hiragana_conversion lower m pass s t
| HC_other : pass = false -> ~ mixed_text s -> ~ all_nonempty S_romaji s -> ~ starts_with_punct s ->
    hiragana_text (u "う") [] s t -> hiragana_conversion lower m pass s t.

Inductive katakana_conversion (lower : str -> str) (m : mode) (pass : bool) (s t : str) : Prop :=
| KC_pass : pass = true -> Forall2 katakana_for s t -> katakana_conversion lower m pass s t
| KC_romaji h : pass = false -> all_nonempty S_romaji s \/ mixed_text s -> converts m (lower s) h ->
    Forall2 katakana_for h t -> katakana_conversion lower m pass s t
| KC_other : pass = false -> ~ all_nonempty S_romaji s -> ~ mixed_text s -> Forall2 katakana_for s t ->
    katakana_conversion lower m pass s t.

Definition romaji_conversion (up : bool) (s t : str) : Prop :=
  exists h, hiragana_text (u "お") [] s h /\ romanises up s h t.
