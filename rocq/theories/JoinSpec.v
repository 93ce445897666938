(** * Romanising a text in parts and token by token (C75, C76) *)
From Verif Require Import Base KanaSpec ScriptSpec RomajiSpec.

(** Hiragana text [y] standing directly after [x] is spelled differently than on its own:
    - after っ, a kana whose consonant is doubled;
    - after っ, ん and a vowel or y (the apostrophe is lost);
    - after ん that does not stand after っ, a vowel or y (an apostrophe is added);
    - after a kana of the i column, く or ふ, one of the small ぃ ぇ ゃ ゅ ょ;
    - the same after ゔ if the library reads it vu, and after っゔ if it reads that vvu
      ([rv] and [rtv] are the romaji of ゔ and っゔ, which differ between libraries, see C70). *)
Definition doublable : str := u "かきくけこがぎぐげごさしすせそざじずぜぞたちつてとだぢづでどはひふへほばびぶべぼぱぴぷぺぽまみむめもらりるれろわゐゑをゔ".
Definition after_n : str := u "あいうえおやゆよ".
Definition bases : str := u "きぎくしじちぢにひびぴふみり".
Definition smalls : str := u "ぃぇゃゅょ".
Inductive fuses (rv rtv : str) : str -> str -> Prop :=
| fuses_tsu x b y : In b doublable -> fuses rv rtv (x ++ [ch "っ"]) (b :: y)
| fuses_tsu_n x b y : In b after_n -> fuses rv rtv (x ++ [ch "っ"]) (ch "ん" :: b :: y)
| fuses_n x b y : (forall x', x <> x' ++ [ch "っ"]) -> In b after_n -> fuses rv rtv (x ++ [ch "ん"]) (b :: y)
| fuses_small x a b y : In a bases -> In b smalls -> fuses rv rtv (x ++ [a]) (b :: y)
| fuses_v x b y : rv = u "vu" -> (forall x', x <> x' ++ [ch "っ"]) -> In b smalls -> fuses rv rtv (x ++ [ch "ゔ"]) (b :: y)
| fuses_tsu_v x b y : rtv = u "vvu" -> In b smalls -> fuses rv rtv (x ++ [ch "っ"; ch "ゔ"]) (b :: y).

(** The part [y] of a text depends on what stands before it, [x]: it has a long mark that
    lengthens something before the part, or it fuses in hiragana. *)
Definition depends (rv rtv x y : str) : Prop :=
  (exists y1 y2 k, y = y1 ++ long_mark :: y2 /\ lengthens (x ++ y1) k /\ ~ exists k', lengthens y1 k')
  \/ (exists hx hy, hiragana_text (u "お") [] x hx /\ hiragana_text (u "お") [] y hy /\ fuses rv rtv hx hy).

(** no long mark lengthens anything *)
Definition no_long_mark (s : str) : Prop := forall a b k, s = a ++ long_mark :: b -> ~ lengthens a k.
(** no hiragana letter stands beside a katakana letter *)
Definition scripts_apart (s : str) : Prop := forall x a b y, s = x ++ a :: b :: y ->
  ~ (hiragana_letter a /\ katakana_letter b) /\ ~ (katakana_letter a /\ hiragana_letter b).
