(** * C16-C22, C61-C64: to_hiragana and to_katakana *)
From Verif Require Import Base Std StdInstances Strings Convert KanaSpec KanaDict ScriptSpec Predicates
  ScriptProofs LibrarySpec ExactSpec Results_Script.

(** C16.  The result of [to_katakana] contains no hiragana letter. *)
Theorem C16_to_katakana_no_hiragana :
  forall E, std_ok E -> forall s o t, to_katakana_with_opt E s o = Ok t ->
    forall c, In c t -> ~ hiragana_letter c.
Proof. exact C16_to_katakana_no_hiragana_proof. Qed.
Print Assumptions C16_to_katakana_no_hiragana.

Example C16_case : to_katakana std_1_82 (u "aiueoあゔゖ漢") = Ok (u "アイウエオアヴヶ漢").
Proof. vm_compute. reflexivity. Qed.

(** C17.  Partial: the result of [to_hiragana] contains a katakana letter other than the symbols ヵ
    and ヶ exactly if the text does, begins with a typographic quote and mixes no romaji
    with kana, without [pass_romaji].  Missing: those texts, for which the claim is false
    (see [C17_to_hiragana_no_katakana_refuted]). *)
Theorem C17_to_hiragana_no_katakana_partial :
  forall E, std_ok E -> forall s o t, to_hiragana_with_opt E s o = Ok t ->
    ((exists c, In c t /\ katakana_letter c /\ ~ In c (u "ヵヶ")) <->
     pass_romaji o = false /\ ~ mixed_text s /\ (exists q r, s = q :: r /\ smart_quote q) /\
     exists c, In c s /\ katakana_letter c /\ ~ In c (u "ヵヶ")).
Proof. exact C17_to_hiragana_no_katakana_partial_proof. Qed.
Print Assumptions C17_to_hiragana_no_katakana_partial.

Example C17_case : to_hiragana std_1_82 (u "xkaカタ-ヷヶラー") = Ok (u "ヵかたーわヶらあ")
  /\ to_hiragana std_1_82 (u "‘カ。") = Ok (u "「カ。") /\ to_hiragana std_1_82 (u "‘カa") = Ok (u "「かあ").
Proof. vm_compute. auto. Qed.
Example C17_quotes : ~ mixed_text (u "‘カ。") /\ smart_quote (ch "‘") /\ mixed_text (u "‘カa").
Proof. rewrite <- !mixed_spec. vm_compute. intuition discriminate. Qed.

(** C17.  Refuted: after an initial typographic quote katakana stays as it is. *)
Theorem C17_to_hiragana_no_katakana_refuted :
  forall E, std_ok E -> exists s t, to_hiragana E s = Ok t /\
    exists c, In c t /\ katakana_letter c /\ ~ In c (u "ヵヶ").
Proof. exact C17_to_hiragana_no_katakana_refuted_proof. Qed.
Print Assumptions C17_to_hiragana_no_katakana_refuted.

Example C17_witness : to_hiragana std_1_52 (u "‘カ") = Ok (u "「カ").
Proof. vm_compute. reflexivity. Qed.

(** C18.  The case of ASCII letters does not matter for romaji and mixed text. *)
Theorem C18_letter_case_ignored :
  forall E, std_ok E -> forall s s' o, pass_romaji o = false -> same_up_to_case s s' ->
    (all_nonempty S_romaji s \/ (has (fun c => S_hiragana c \/ S_katakana c) s /\ has S_romaji s)) ->
    to_hiragana_with_opt E s o = to_hiragana_with_opt E s' o /\
    to_katakana_with_opt E s o = to_katakana_with_opt E s' o.
Proof. exact C18_letter_case_ignored_proof. Qed.
Print Assumptions C18_letter_case_ignored.

Example C18_case : to_hiragana std_1_82 (u "KanaカナsHi") = to_hiragana std_1_82 (u "kaNAカナShI")
  /\ to_katakana std_1_82 (u "WaniKani") = Ok (u "ワニカニ")
  /\ to_katakana std_1_82 (u "wanikani") = Ok (u "ワニカニ").
Proof. vm_compute. auto. Qed.

(** C19.  With [pass_romaji], [to_katakana] shifts exactly the hiragana letters; [to_hiragana]
    rewrites the text as [hiragana_text] says, which without long marks is letter by
    letter; text without ヴ has only one such rewriting. *)
Theorem C19_pass_romaji :
  forall E, std_ok E -> forall s o, pass_romaji o = true ->
    (forall t, to_katakana_with_opt E s o = Ok t <-> Forall2 katakana_for s t) /\
    (forall t, to_hiragana_with_opt E s o = Ok t -> hiragana_text (u "う") [] s t) /\
    (~ In (ch "ヴ") s -> forall t, to_hiragana_with_opt E s o = Ok t <-> hiragana_text (u "う") [] s t) /\
    (~ In long_mark s -> forall t, to_hiragana_with_opt E s o = Ok t <-> Forall2 hiragana_for s t).
Proof. exact C19_pass_romaji_proof. Qed.
Print Assumptions C19_pass_romaji.

Definition pass : options := Build_options false true false false.
Example C19_case : to_hiragana_with_opt std_1_82 (u "kana カナー ー漢ンー・ー") pass = Ok (u "kana かなあ ー漢ん・")
  /\ to_katakana_with_opt std_1_82 (u "kana かな ー漢") pass = Ok (u "kana カナ ー漢").
Proof. vm_compute. auto. Qed.

(** C20.  Hiragana survives the way through katakana and back, and vice versa. *)
Theorem C20_round_trip :
  forall E, std_ok E -> forall o o',
    (forall h t, (forall c, In c h -> hiragana_letter c /\ ~ In c (u "ゕゖ")) ->
       to_katakana_with_opt E h o = Ok t -> to_hiragana_with_opt E t o' = Ok h) /\
    (forall k t, (forall c, In c k -> katakana_letter c /\ ~ In c (u "ヷヸヹヺ") \/ c = ch "・") ->
       to_hiragana_with_opt E k o = Ok t -> to_katakana_with_opt E t o' = Ok k).
Proof. exact C20_round_trip_proof. Qed.
Print Assumptions C20_round_trip.

Example C20_case : to_katakana std_1_82 (u "すし゛ゔゐっ") = Ok (u "スシ゛ヴヰッ") /\ to_hiragana std_1_82 (u "スシヴヰッヶ") = Ok (u "すしゔゐっヶ")
  /\ to_katakana std_1_82 (u "すしゔゐっヶ") = Ok (u "スシヴヰッヶ").
Proof. vm_compute. auto. Qed.

(** C21.  Hiragana text is a fixed point of [to_hiragana], katakana text one of
    [to_katakana]. *)
Theorem C21_fixed_points :
  forall E, std_ok E -> forall s o,
    ((forall c, In c s -> S_hiragana c) -> to_hiragana_with_opt E s o = Ok s) /\
    ((forall c, In c s -> S_katakana c) -> to_katakana_with_opt E s o = Ok s).
Proof. exact C21_fixed_points_proof. Qed.
Print Assumptions C21_fixed_points.

Example C21_case : to_hiragana std_1_82 (u "らーめん") = Ok (u "らーめん")
  /\ to_katakana std_1_82 (u "ラーメン・ヶ") = Ok (u "ラーメン・ヶ").
Proof. vm_compute. auto. Qed.

(** C22.  In a katakana word every mark becomes the vowel of the letter it follows, う after
    the o row; ッー and ンー lose the mark.  (ヴ: see C30.) *)
Theorem C22_long_marks :
  forall E, std_ok E -> forall o ms, Forall (word_letter (u "う")) ms -> ~ In (ch "ヴ") (word_katakana ms) ->
    to_hiragana_with_opt E (word_katakana ms) o = Ok (word_hiragana ms).
Proof. exact C22_long_marks_proof. Qed.
Print Assumptions C22_long_marks.

Example C22_case :
  let ms := [(ch "ス", ch "す", u "う", 1%nat); (ch "パ", ch "ぱ", u "あ", 0%nat); (ch "ト", ch "と", u "う", 2%nat)] in
  Forall (word_letter (u "う")) ms /\ word_katakana ms = u "スーパトーー" /\ word_hiragana ms = u "すうぱとうう"
  /\ to_hiragana std_1_82 (u "スーパトーー") = Ok (u "すうぱとうう").
Proof.
  split; [|vm_compute; auto].
  repeat constructor; try (unfold hiragana_for; vm_compute; intuition discriminate);
    (eexists; split; [cbn [In mark_table]|]).
  - do 2 right. left. reflexivity.
  - vm_compute. tauto.
  - left. reflexivity.
  - vm_compute. tauto.
  - do 4 right. left. reflexivity.
  - vm_compute. tauto.
Qed.

(** C61.  What [to_hiragana] does to any text.  Mixed text: katakana is rewritten first, then
    the lower-cased result is converted as by [to_kana].  Text of romaji only, or beginning
    with English punctuation: the lower-cased text is converted.  Any other text: only its
    katakana is rewritten.  (After ヴ a long mark is not determined, see C30: there only one
    direction holds.)  Lower-casing is that of the standard library; where letter case is a
    matter of ASCII it does what it should. *)
Theorem C61_to_hiragana_described :
  forall E, std_ok E ->
    (forall s o, pass_romaji o = false ->
       (mixed_text s -> forall t,
          (to_hiragana_with_opt E s o = Ok t ->
             exists h, hiragana_text (u "う") [] s h /\ converts (mode_of o) (to_lowercase E h) t) /\
          (~ In (ch "ヴ") s ->
             (exists h, hiragana_text (u "う") [] s h /\ converts (mode_of o) (to_lowercase E h) t) ->
             to_hiragana_with_opt E s o = Ok t)) /\
       (~ mixed_text s -> all_nonempty S_romaji s \/ starts_with_punct s -> forall t,
          to_hiragana_with_opt E s o = Ok t <-> converts (mode_of o) (to_lowercase E s) t) /\
       (~ mixed_text s -> ~ all_nonempty S_romaji s -> ~ starts_with_punct s -> forall t,
          (to_hiragana_with_opt E s o = Ok t -> hiragana_text (u "う") [] s t) /\
          (~ In (ch "ヴ") s -> hiragana_text (u "う") [] s t -> to_hiragana_with_opt E s o = Ok t))) /\
    (forall l, ascii_or_caseless l -> Forall2 lowers l (to_lowercase E l)).
Proof. exact C61_to_hiragana_described_proof. Qed.
Print Assumptions C61_to_hiragana_described.

Example C61_case : to_hiragana std_1_82 (u "KAスーKi") = Ok (u "かすうき")
  /\ to_hiragana std_1_82 (u "KaSHi") = Ok (u "かし")
  /\ to_hiragana std_1_82 (u "スー漢字") = Ok (u "すう漢字")
  /\ mixed_text (u "KAスーKi") /\ all_nonempty S_romaji (u "KaSHi")
  /\ ~ mixed_text (u "スー漢字") /\ ascii_or_caseless (u "KAスーKi").
Proof.
  do 3 (split; [vm_compute; reflexivity|]). split; [apply mixed_spec; vm_compute; reflexivity|].
  split; [apply romaji_text_spec; vm_compute; reflexivity|].
  split; [rewrite <- mixed_spec; vm_compute; discriminate|].
  assert (B : forallb (fun c => (c <? 128) || caseless c) (u "KAスーKi") = true) by (vm_compute; reflexivity).
  rewrite forallb_forall in B. intros c I. specialize (B c I). apply orb_prop in B.
  rewrite N.ltb_lt in B. exact B.
Qed.

(** C62.  What [to_katakana] does to any text.  Romaji only, or mixed text: the lower-cased
    text is converted as by [to_kana], then every hiragana letter becomes katakana.  Any
    other text: only its hiragana letters change. *)
Theorem C62_to_katakana_described :
  forall E, std_ok E -> forall s o, pass_romaji o = false ->
    (all_nonempty S_romaji s \/ mixed_text s -> forall t,
       to_katakana_with_opt E s o = Ok t <->
       exists h, converts (mode_of o) (to_lowercase E s) h /\ Forall2 katakana_for h t) /\
    (~ all_nonempty S_romaji s -> ~ mixed_text s -> forall t,
       to_katakana_with_opt E s o = Ok t <-> Forall2 katakana_for s t).
Proof. exact C62_to_katakana_described_proof. Qed.
Print Assumptions C62_to_katakana_described.

Example C62_case : to_katakana std_1_82 (u "KAすーKi") = Ok (u "カスーキ")
  /\ to_katakana std_1_82 (u "kaSHi") = Ok (u "カシ")
  /\ to_katakana std_1_82 (u "すー漢字") = Ok (u "スー漢字").
Proof. vm_compute. auto. Qed.

(** C63.  The kana conversions do not depend on the version of the standard library: [to_kana]
    never, [to_katakana] where letter case is a matter of ASCII, and there [to_hiragana]
    exactly unless a long mark lengthens ヴ (see C30) in a text whose kana are converted. *)
Theorem C63_library_independent :
  forall s o,
    (forall E E', std_ok E -> std_ok E' -> to_kana_with_opt E s o = to_kana_with_opt E' s o) /\
    (ascii_or_caseless s ->
       (forall E E', std_ok E -> std_ok E' -> to_katakana_with_opt E s o = to_katakana_with_opt E' s o) /\
       ((forall E E', std_ok E -> std_ok E' -> to_hiragana_with_opt E s o = to_hiragana_with_opt E' s o) <->
        ~ (long_v s /\ (pass_romaji o = true \/ mixed_text s \/ ~ starts_with_punct s)))).
Proof. exact C63_library_independent_proof. Qed.
Print Assumptions C63_library_independent.

Example C63_case : to_hiragana std_1_52 (u "KAスーヴ漢") = to_hiragana std_1_82 (u "KAスーヴ漢")
  /\ to_hiragana std_1_82 (u "KAスーヴ漢") = Ok (u "かすうゔ漢").
Proof. vm_compute. auto. Qed.
Example C63_long_v : long_v (u "イヴー") /\ ~ starts_with_punct (u "イヴー")
  /\ to_hiragana (std_pick 1) (u "イヴー") = Ok (u "いゔあ") /\ to_hiragana (std_pick 4) (u "イヴー") = Ok (u "いゔう").
Proof.
  split; [|split; [|vm_compute; auto]].
  - exists (u "イヴ"), []. split; [reflexivity|]. exists (u "イ"), []. split; [reflexivity|].
    split; [unfold katakana_letter; vm_compute; intuition discriminate|]. split; [vm_compute; intuition discriminate|constructor].
  - intros (c & r & Q & P). injection Q as <- <-. revert P. vm_compute. intuition discriminate.
Qed.

(** C64.  Partial: with [pass_romaji] both conversions are idempotent.  Without it a second
    conversion always reaches a fixed point.  The first one of [to_katakana] does exactly in
    IME mode, if the text is not romanised at all, and if, lower-cased, it has no n read on
    its own before yya and the like; that of [to_hiragana] moreover only if no katakana
    letter is left over after a typographic quote (C17).  Missing: the other texts, for
    which the claim is false, see [C64_idempotent_refuted]. *)
Theorem C64_idempotent_partial :
  forall E, std_ok E -> forall s o,
    (pass_romaji o = true ->
       (forall t, to_hiragana_with_opt E s o = Ok t -> to_hiragana_with_opt E t o = Ok t) /\
       (forall t, to_katakana_with_opt E s o = Ok t -> to_katakana_with_opt E t o = Ok t)) /\
    (pass_romaji o = false ->
       (forall t, to_hiragana_with_opt E s o = Ok t -> exists t',
          to_hiragana_with_opt E t o = Ok t' /\ to_hiragana_with_opt E t' o = Ok t' /\
          (t' = t <->
             (mixed_text s \/ all_nonempty S_romaji s \/ starts_with_punct s ->
                mode_of o = Ime \/ ~ reads_nyy_lowered (mode_of o) s) /\
             (~ mixed_text s -> (exists q r, s = q :: r /\ smart_quote q) ->
                forall c, In c s -> katakana_letter c -> In c (u "ヵヶ")))) /\
       (forall t, to_katakana_with_opt E s o = Ok t -> exists t',
          to_katakana_with_opt E t o = Ok t' /\ to_katakana_with_opt E t' o = Ok t' /\
          (t' = t <-> mode_of o = Ime \/ ~ (all_nonempty S_romaji s \/ mixed_text s) \/
             ~ reads_nyy_lowered (mode_of o) s))).
Proof. exact C64_idempotent_partial_proof. Qed.
Print Assumptions C64_idempotent_partial.

Example C64_case : to_hiragana std_1_82 (u "KAスーxyz?") = Ok (u "かすうxyz？")
  /\ to_hiragana std_1_82 (u "かすうxyz？") = Ok (u "かすうxyz？")
  /\ to_katakana std_1_82 (u "KAすーxyz?") = Ok (u "カスーxyz？")
  /\ to_katakana std_1_82 (u "カスーxyz？") = Ok (u "カスーxyz？").
Proof. vm_compute. auto. Qed.
(** İ and the Kelvin sign are lower-cased to i and k *)
Example C64_beyond_ascii : to_katakana std_1_82 (u "nyyİか") = Ok (u "nッイ" ++ [0x307] ++ u "カ")
  /\ to_katakana std_1_82 (u "nッイ" ++ [0x307] ++ u "カ") = Ok (u "ンッイ" ++ [0x307] ++ u "カ")
  /\ reads_nyy_lowered Default (u "nyyİか")
  /\ to_hiragana std_1_82 (u "‘カ" ++ [0x212A]) = Ok (u "「カk")
  /\ to_hiragana std_1_82 (u "「カk") = Ok (u "「かk")
  /\ to_hiragana std_1_82 (u "ÄΣkaア") = Ok (u "äσかあ").
Proof.
  split; [vm_compute; reflexivity|]. split; [vm_compute; reflexivity|]. split; [|vm_compute; auto].
  exists [], (ch "n"), (u "yy"), 0x130, (u "か"). split; [reflexivity|]. split; [now left|].
  split; [apply casing_low; reflexivity|]. split; [now right|]. intros p' c Q. destruct p'; discriminate Q.
Qed.

(** C64.  Refuted: neither conversion is idempotent on nyya, nor is [to_hiragana] on ‘カ. *)
Theorem C64_idempotent_refuted :
  forall E, std_ok E -> exists h h' k k' q q',
    to_hiragana E (u "nyya") = Ok h /\ to_hiragana E h = Ok h' /\ h' <> h /\
    to_katakana E (u "nyya") = Ok k /\ to_katakana E k = Ok k' /\ k' <> k /\
    to_hiragana E (u "‘カ") = Ok q /\ to_hiragana E q = Ok q' /\ q' <> q.
Proof. exact C64_idempotent_refuted_proof. Qed.
Print Assumptions C64_idempotent_refuted.

Example C64_witness : to_hiragana std_1_52 (u "nyya") = Ok (u "nっや")
  /\ to_hiragana std_1_52 (u "nっや") = Ok (u "んっや").
Proof. vm_compute. auto. Qed.
