(** * Specification of romaji-to-kana conversion (C05-C15)

    An independent description of the dictionary (table of rows plus the
    gemination rule), and conversion as a relation.  Nothing here refers to trees
    or to the code. *)
From Verif Require Import Base.

Inductive mode := Default | Obsolete | Ime.

(** ** The dictionary *)
Definition geminable : str := u "bcdfghjkmpqrstvwyz".

(** [words "ば び ぶ"] splits at spaces *)
Fixpoint words_go (acc s : str) : list str :=
  match s with
  | [] => [rev acc]
  | c :: s' => if c =? 0x20 then rev acc :: words_go [] s' else words_go (c :: acc) s'
  end.
Definition words (s : str) : list str := words_go [] s.

(** consonant(s) and the kana for a i u e o *)
Definition vowel_rows : list (str * str) := [
  (u "",   u "あ い う え お");
  (u "k",  u "か き く け こ");   (u "ky", u "きゃ きぃ きゅ きぇ きょ");
  (u "c",  u "か き く け こ");
  (u "q",  u "くぁ くぃ くぅ くぇ くぉ");
  (u "qw", u "くぁ くぃ くぅ くぇ くぉ"); (u "qy", u "くゃ くぃ くゅ くぇ くょ");
  (u "g",  u "が ぎ ぐ げ ご");   (u "gy", u "ぎゃ ぎぃ ぎゅ ぎぇ ぎょ");
  (u "gw", u "ぐぁ ぐぃ ぐぅ ぐぇ ぐぉ");
  (u "s",  u "さ し す せ そ");   (u "sy", u "しゃ しぃ しゅ しぇ しょ");
  (u "sh", u "しゃ し しゅ しぇ しょ"); (u "shy", u "しゃ しぃ しゅ しぇ しょ");
  (u "sw", u "すぁ すぃ すぅ すぇ すぉ");
  (u "z",  u "ざ じ ず ぜ ぞ");   (u "zy", u "じゃ じぃ じゅ じぇ じょ");
  (u "j",  u "じゃ じ じゅ じぇ じょ"); (u "jy", u "じゃ じぃ じゅ じぇ じょ");
  (u "t",  u "た ち つ て と");   (u "ty", u "ちゃ ちぃ ちゅ ちぇ ちょ");
  (u "ch", u "ちゃ ち ちゅ ちぇ ちょ"); (u "chy", u "ちゃ ちぃ ちゅ ちぇ ちょ");
  (u "cy", u "ちゃ ちぃ ちゅ ちぇ ちょ");
  (u "ts", u "つぁ つぃ つ つぇ つぉ"); (u "th", u "てゃ てぃ てゅ てぇ てょ");
  (u "tw", u "とぁ とぃ とぅ とぇ とぉ");
  (u "d",  u "だ ぢ づ で ど");   (u "dy", u "ぢゃ ぢぃ ぢゅ ぢぇ ぢょ");
  (u "dh", u "でゃ でぃ でゅ でぇ でょ"); (u "dw", u "どぁ どぃ どぅ どぇ どぉ");
  (u "n",  u "な に ぬ ね の");   (u "ny", u "にゃ にぃ にゅ にぇ にょ");
  (u "h",  u "は ひ ふ へ ほ");   (u "hy", u "ひゃ ひぃ ひゅ ひぇ ひょ");
  (u "f",  u "ふぁ ふぃ ふ ふぇ ふぉ"); (u "fy", u "ふゃ ふぃ ふゅ ふぇ ふょ");
  (u "fw", u "ふぁ ふぃ ふぅ ふぇ ふぉ");
  (u "b",  u "ば び ぶ べ ぼ");   (u "by", u "びゃ びぃ びゅ びぇ びょ");
  (u "p",  u "ぱ ぴ ぷ ぺ ぽ");   (u "py", u "ぴゃ ぴぃ ぴゅ ぴぇ ぴょ");
  (u "m",  u "ま み む め も");   (u "my", u "みゃ みぃ みゅ みぇ みょ");
  (u "y",  u "や い ゆ いぇ よ");
  (u "r",  u "ら り る れ ろ");   (u "ry", u "りゃ りぃ りゅ りぇ りょ");
  (u "w",  u "わ うぃ う うぇ を"); (u "wh", u "うぁ うぃ う うぇ うぉ");
  (u "v",  u "ゔぁ ゔぃ ゔ ゔぇ ゔぉ"); (u "vy", u "ゔゃ ゔぃ ゔゅ ゔぇ ゔょ");
  (u "l",  u "ぁ ぃ ぅ ぇ ぉ");   (u "ly", u "ゃ ぃ ゅ ぇ ょ");
  (u "x",  u "ぁ ぃ ぅ ぇ ぉ");   (u "xy", u "ゃ ぃ ゅ ぇ ょ")
].

Definition other_entries : list (str * str) := [
  (u "kwa", u "くぁ"); (u "n'", u "ん"); (u "xn", u "ん");
  (u "ltu", u "っ"); (u "ltsu", u "っ"); (u "xtu", u "っ"); (u "xtsu", u "っ");
  (u "lwa", u "ゎ"); (u "xwa", u "ゎ");
  (u "lca", u "ヵ"); (u "lka", u "ヵ"); (u "xca", u "ヵ"); (u "xka", u "ヵ");
  (u "lce", u "ヶ"); (u "lke", u "ヶ"); (u "xce", u "ヶ"); (u "xke", u "ヶ");
  (u ".", u "。"); (u ",", u "、"); (u ":", u "："); (u "/", u "・"); (u "!", u "！");
  (u "?", u "？"); (u "~", u "〜"); (u "-", u "ー"); (u "‘", u "「"); (u "’", u "」");
  (u "“", u "『"); (u "”", u "』"); (u "[", u "［"); (u "]", u "］"); (u "(", u "（");
  (u ")", u "）"); (u "{", u "｛"); (u "}", u "｝")
].

Definition row_entries (r : str * str) : list (str * str) :=
  combine (map (fun v => fst r ++ [v]) (u "aiueo")) (words (snd r)).

Definition base_entries : list (str * str) :=
  Eval vm_compute in flat_map row_entries vowel_rows ++ other_entries.

(** a doubled geminable consonant is a small tsu *)
Definition geminate (e : str * str) : list (str * str) :=
  match fst e with
  | c :: _ => if existsb (N.eqb c) geminable then [(c :: fst e, 0x3063 :: snd e)] else []
  | [] => []
  end.
Definition common_entries : list (str * str) :=
  Eval vm_compute in base_entries ++ flat_map geminate base_entries.

Definition dict (m : mode) : list (str * str) :=
  match m with
  | Default => (u "n", u "ん") :: common_entries
  | Obsolete =>
    [(u "n", u "ん"); (u "wi", u "ゐ"); (u "we", u "ゑ")]
    ++ filter (fun e => negb (str_eqb (fst e) (u "wi") || str_eqb (fst e) (u "we"))) common_entries
  | Ime => (u "nn", u "ん") :: (u "n ", u "ん") :: common_entries
  end.
Definition entry (m : mode) (k v : str) : Prop := In (k, v) (dict m).

(** ** Letter case *)
Definition upper_letter (c : N) : Prop := 0x41 <= c <= 0x5A.
Definition lower_letter (c : N) : Prop := 0x61 <= c <= 0x7A.
(** ASCII lower case of one character, as a relation *)
Definition lowers (c d : N) : Prop := (upper_letter c /\ d = c + 32) \/ (~ upper_letter c /\ d = c).
(** [seg] is a casing of [key] *)
Definition casing (seg key : str) : Prop := Forall2 lowers seg key.
(** katakana for hiragana *)
Definition katakana_for (h k : N) : Prop :=
  (0x3041 <= h <= 0x3096 /\ k = h + 96) \/ (~ 0x3041 <= h <= 0x3096 /\ k = h).
(** the script of the output is chosen by the case of the segment *)
Definition cased_output (seg v out : str) : Prop :=
  ((forall c, In c seg -> upper_letter c) /\ Forall2 katakana_for v out)
  \/ (~ (forall c, In c seg -> upper_letter c) /\ out = v).

(** ** Conversion *)
Section Converts.
  Context (m : mode).
  (** [p] is the beginning of (a casing of) some key *)
  Definition viable (p : str) : Prop := exists q k v, casing p q /\ entry m (q ++ k) v.
  (** the longest viable beginning of [s] is [p] *)
  Definition longest (p s : str) : Prop :=
    (exists r, s = p ++ r) /\ viable p /\
    forall p' r', s = p' ++ r' -> viable p' -> (length p' <= length p)%nat.

  Inductive converts : str -> str -> Prop :=
  | cv_nil : converts [] []
  | cv_hit p rest k v out out' :
      longest p (p ++ rest) -> casing p k -> entry m k v -> cased_output p v out ->
      converts rest out' -> converts (p ++ rest) (out ++ out')
  | cv_miss c rest out :
      (forall p k v, longest p (c :: rest) -> casing p k -> ~ entry m k v) ->
      converts rest out -> converts (c :: rest) (c :: out).
End Converts.

(** ** Characters and the dictionary *)
(** in no key, whatever its case *)
Definition in_no_key (m : mode) (c : N) : Prop :=
  forall k v d, entry m k v -> lowers c d -> ~ In d k.
Definition begins_no_key (m : mode) (c : N) : Prop :=
  forall k v d, entry m (d :: k) v -> ~ lowers c d.
(** no other key extends [k] *)
Definition unextended (m : mode) (k : str) : Prop :=
  forall e v, entry m (k ++ e) v -> e = [].
Definition hiragana_letter (c : N) : Prop := 0x3041 <= c <= 0x3096.
Definition katakana_letter (c : N) : Prop := 0x30A1 <= c <= 0x30FA.

(** w followed by i or e, in any case *)
Definition has_wi_we (s : str) : Prop :=
  exists a w x b, s = a ++ w :: x :: b /\ (w = 0x77 \/ w = 0x57)
    /\ (x = 0x69 \/ x = 0x49 \/ x = 0x65 \/ x = 0x45).

(** n in either case *)
Definition n_letter (c : N) : Prop := c = 0x6E \/ c = 0x4E.

(** what keeps n from being ん on its own *)
Definition n_follow (c : N) : Prop :=
  exists d, lowers c d /\ In d (u "'aiueoy").

(** y in either case *)
Definition y_letter (c : N) : Prop := c = 0x79 \/ c = 0x59.
(** What a second conversion does to converted text: every left-over n becomes ん (and N
    becomes ン) unless a y follows. *)
Inductive second_pass : str -> str -> Prop :=
| sp_nil : second_pass [] []
| sp_n c k r r' :
    (c = 0x6E /\ k = 0x3093) \/ (c = 0x4E /\ k = 0x30F3) ->
    (forall y q, r = y :: q -> ~ y_letter y) -> second_pass r r' -> second_pass (c :: r) (k :: r')
| sp_keep c r r' :
    (n_letter c -> exists y q, r = y :: q /\ y_letter y) -> second_pass r r' -> second_pass (c :: r) (c :: r').
