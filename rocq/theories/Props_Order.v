(** * C110: the order of texts

    [text_lt] is the order of Rust's strings, by which a word list is sorted. *)
From Verif Require Import Base Std StdInstances Chars Strings Convert Predicates InKatakanaSpec OrderSpec Results_Order.

(** C110.  hiragana_to_katakana keeps the order of all texts written with the characters [P] exactly if no hiragana letter [x] of [P]
    passes or meets another character of [P] on its way to its katakana. *)
Theorem C110_katakana :
  forall P : N -> Prop, (forall c, P c -> is_scalar c = true) ->
    ((forall s t s' t', over P s -> over P t -> hiragana_to_katakana s = Ok s' -> hiragana_to_katakana t = Ok t' ->
        text_lt s t -> text_lt s' t')
     <-> ~ exists x y, P x /\ P y /\ hira_letter x /\ 0x3096 < y <= x + 96).
Proof. exact C110_katakana_proof. Qed.
Print Assumptions C110_katakana.

(** letters, kanji and the mark ー; but ゝ comes after か and before カ *)
Example C110_katakana_case :
  (forall s t s' t', over (fun c => hira_letter c \/ c = ch "ー" \/ ch "一" <= c <= ch "龯") s ->
     over (fun c => hira_letter c \/ c = ch "ー" \/ ch "一" <= c <= ch "龯") t ->
     hiragana_to_katakana s = Ok s' -> hiragana_to_katakana t = Ok t' -> text_lt s t -> text_lt s' t')
  /\ text_lt (u "か") (u "ゝ") /\ text_lt (u "ゝ") (u "カ")
  /\ text_lt (u "あめ") (u "あめり") /\ text_lt (u "あめりか") (u "いぬ").
Proof.
  split.
  - change (ch "ー") with 0x30FC. change (ch "一") with 0x4E00. change (ch "龯") with 0x9FAF. apply C110_katakana.
    + intros c H. apply low_scalar. destruct H as [[_ H]|[->|[_ H]]]; [|discriminate|exact H]. apply (N.le_trans _ _ _ H). discriminate.
    + intros (x & y & X & [Y|[Y|Y]] & L & [A B]).
      * destruct Y as [_ Y]. apply N.lt_nge in A. contradiction.
      * subst y. destruct L as [_ L]. assert (Z : x + 96 <= 0x3096 + 96) by (apply N.add_le_mono_r; exact L).
        pose proof (N.le_trans _ _ _ B Z) as W. exact (W eq_refl).
      * destruct L as [_ L]. assert (Z : x + 96 <= 0x3096 + 96) by (apply N.add_le_mono_r; exact L).
        pose proof (N.le_trans _ _ _ (proj1 Y) (N.le_trans _ _ _ B Z)) as W. exact (W eq_refl).
  - vm_compute. repeat first [split|apply lex_later|apply lex_end|apply lex_here; reflexivity].
Qed.

(** C110.  katakana_to_hiragana keeps the order of all texts of katakana letters from ァ to ヴ. *)
Theorem C110_hiragana :
  forall E, std_ok E -> forall s t s' t', over (fun c => 0x30A1 <= c <= 0x30F4) s -> over (fun c => 0x30A1 <= c <= 0x30F4) t ->
    katakana_to_hiragana E s = Ok s' -> katakana_to_hiragana E t = Ok t' -> (text_lt s' t' <-> text_lt s t).
Proof. exact C110_hiragana_proof. Qed.
Print Assumptions C110_hiragana.

Example C110_hiragana_case :
  std_ok std_1_82 /\ over (fun c => 0x30A1 <= c <= 0x30F4) (u "アメリカ") /\ over (fun c => 0x30A1 <= c <= 0x30F4) (u "イヌ")
  /\ katakana_to_hiragana std_1_82 (u "アメリカ") = Ok (u "あめりか") /\ text_lt (u "アメリカ") (u "イヌ").
Proof.
  split; [exact std_1_82_ok|]. split; [repeat constructor; discriminate|]. split; [repeat constructor; discriminate|]. split; [vm_compute; reflexivity|].
  vm_compute. repeat first [apply lex_later|apply lex_here; reflexivity].
Qed.

(** C110.  The other conversions do not keep the order.  A long mark, which comes after all letters, becomes a vowel, and in romaji
    e comes before u. *)
Theorem C110_not_kept :
  forall E, std_ok E ->
    (exists s t s' t', katakana_to_hiragana E s = Ok s' /\ katakana_to_hiragana E t = Ok t' /\ text_lt s t /\ text_lt t' s')
    /\ (exists s t s' t', over hira_letter s /\ over hira_letter t /\ to_romaji E s = Ok s' /\ to_romaji E t = Ok t' /\ text_lt s t /\ text_lt t' s')
    /\ (exists s t s' t', to_kana E s = Ok s' /\ to_kana E t = Ok t' /\ text_lt s t /\ text_lt t' s').
Proof. exact C110_not_kept_proof. Qed.
Print Assumptions C110_not_kept.

Example C110_not_kept_case :
  katakana_to_hiragana std_1_82 (u "コー") = Ok (u "こう") /\ to_romaji std_1_82 (u "け") = Ok (u "ke") /\ to_kana std_1_82 (u "ku") = Ok (u "く").
Proof. vm_compute. repeat split. Qed.
