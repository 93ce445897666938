(** * C81-C84, C86, C87, C93: the texts that the conversions leave as they are; the texts that are results; one
    conversion after another; there and back *)
From Verif Require Import Base Std StdInstances Convert KanaPure KanaSpec KanaDict KanaProofs Predicates ScriptSpec ScriptProofs RomajiPure RomajiSpec
  JoinSpec Joins TokenSpec FixedSpec Fixed Image ComposeSpec Compose RoundSpec Round RoundUp ScriptResultSpec ScriptImage Results_Fixed.

(** C81.  [to_kana] leaves a text as it is exactly if no key stands in it, except n in front of y;
    [to_romaji] exactly if no character with a reading stands in it.  With [pass_romaji],
    [to_hiragana] leaves a text as it is exactly if it has no katakana letter but ヵ and ヶ,
    [to_katakana] exactly if it has no hiragana letter.  Without it, texts that are converted from
    romaji must moreover be in lower case and left alone by [to_kana]. *)
Theorem C81_unchanged :
  forall E, std_ok E -> forall o s,
    (to_kana_with_opt E s o = Ok s <-> untouched (mode_of o) s) /\
    (to_romaji_with_opt E s o = Ok s <-> forall c, In c s -> ~ romanised c) /\
    (pass_romaji o = true ->
       (to_hiragana_with_opt E s o = Ok s <-> forall c, In c s -> katakana_letter c -> In c (u "ヵヶ")) /\
       (to_katakana_with_opt E s o = Ok s <-> forall c, In c s -> ~ hiragana_letter c)) /\
    (pass_romaji o = false ->
       (to_hiragana_with_opt E s o = Ok s <->
          (forall c, In c s -> katakana_letter c -> In c (u "ヵヶ")) /\
          (mixed_text s \/ all_nonempty S_romaji s \/ starts_with_punct s ->
             to_lowercase E s = s /\ untouched (mode_of o) s)) /\
       (to_katakana_with_opt E s o = Ok s <->
          (forall c, In c s -> ~ hiragana_letter c) /\
          (all_nonempty S_romaji s \/ mixed_text s ->
             to_lowercase E s = s /\ untouched (mode_of o) s))).
Proof. exact C81_unchanged_proof. Qed.
Print Assumptions C81_unchanged.

Example C81_case : to_kana std_1_82 (u "カny くs漢A'") = Ok (u "カny くs漢ア'")
  /\ to_kana std_1_82 (u "カny くs漢'") = Ok (u "カny くs漢'") /\ untouched Default (u "カny くs漢'")
  /\ ~ untouched Ime (u "kan ") /\ ~ untouched Default (u "nka")
  /\ to_romaji std_1_82 (u "ヶ漢x゛‘") = Ok (u "ヶ漢x゛‘") /\ romanised (ch "「")
  /\ to_hiragana std_1_82 (u "漢字ka") = Ok (u "漢字ka") /\ to_hiragana std_1_82 (u "かky漢") = Ok (u "かky漢")
  /\ to_hiragana std_1_82 (u "かK漢") = Ok (u "かk漢") /\ to_katakana std_1_82 (u "K漢") = Ok (u "K漢").
Proof.
  assert (D : forall m s, untouched m s <-> str_eqb (conv m s) s = true) by (intros; rewrite <- kana_fixed; symmetry; apply str_eqb_eq).
  do 2 (split; [vm_compute; reflexivity|]). split; [apply D; vm_compute; reflexivity|].
  split; [rewrite D; vm_compute; discriminate|]. split; [rewrite D; vm_compute; discriminate|]. split; [vm_compute; reflexivity|].
  split; [right; vm_compute; auto 20|]. repeat split; vm_compute; reflexivity.
Qed.

(** C82.  A text is the result of [to_kana] for some text exactly if no key stands in it, except n in
    front of y, or in front of っや, っい, っゆ, っよ (or the same in katakana), which yya etc. are
    read as.  It is the result of [to_romaji] exactly if no character with a reading stands in
    it, which are the texts that [to_romaji] leaves as they are. *)
Theorem C82_results :
  forall E, std_ok E -> forall o t,
    ((exists s, to_kana_with_opt E s o = Ok t) <-> kana_result (mode_of o) t) /\
    ((exists s, to_romaji_with_opt E s o = Ok t) <-> forall c, In c t -> ~ romanised c).
Proof. exact C82_results_proof. Qed.
Print Assumptions C82_results.

Example C82_case : to_kana std_1_82 (u "nyyaNYYO") = Ok (u "nっやNッヨ") /\ kana_result Default (u "nっやNッヨ")
  /\ to_kana std_1_82 (u "nっや") = Ok (u "んっや") /\ ~ untouched Default (u "nっや")
  /\ ~ kana_result Default (u "nっか") /\ kana_result Ime (u "nっか").
Proof.
  split; [vm_compute; reflexivity|]. split; [apply image_exact; exists (u "nyyaNYYO"); vm_compute; reflexivity|].
  split; [vm_compute; reflexivity|]. split; [rewrite <- kana_fixed, <- str_eqb_eq; vm_compute; discriminate|]. split.
  - intro H. destruct (H [] (u "n") (u "n") (u "ん") (u "っか") eq_refl) as (_ & [(c & y' & Q & Y)|(p & y' & P & Q)]).
    + apply KanaDict.casing_low. reflexivity.
    + now left.
    + injection Q as <- _. destruct Y; discriminate.
    + repeat (destruct P as [<-|P]; [discriminate Q|]). destruct P.
  - apply image_exact. exists (u "nっか"). vm_compute. reflexivity.
Qed.

(** C83.  A text without romaji is written in katakana, or in hiragana, before it is converted
    further.  Katakana first makes no difference exactly if the text has neither ゕ nor ゖ and no
    long mark after a hiragana letter.  Hiragana first makes no difference to the katakana exactly
    if the text has none of ヷ, ヸ, ヹ, ヺ and no long mark that lengthens a letter, and none
    to the romaji exactly if no long mark lengthens a letter of the o row. *)
Theorem C83_one_after_another :
  forall E, std_ok E -> forall o s, kana_only (pass_romaji o) s ->
    exists k h, to_katakana_with_opt E s o = Ok k /\ to_hiragana_with_opt E s o = Ok h /\
      (to_hiragana_with_opt E k o = Ok h <-> (forall c, In c s -> ~ In c (u "ゕゖ")) /\ ~ mark_after_hiragana s) /\
      (to_katakana_with_opt E h o = Ok k <-> (forall c, In c s -> ~ In c (u "ヷヸヹヺ")) /\ no_long_mark s) /\
      forall o', upcase_katakana o' = false ->
        exists r rv, to_romaji_with_opt E s o' = Ok r /\ to_romaji_with_opt E (u "ゔ") o' = Ok rv /\
          (to_romaji_with_opt E k o' = Ok r <-> (forall c, In c s -> ~ In c (u "ゕゖ")) /\ ~ mark_after_hiragana s) /\
          (to_romaji_with_opt E h o' = Ok r <-> ~ lengthens_o rv s).
Proof. exact C83_one_after_another_proof. Qed.
Print Assumptions C83_one_after_another.

Example C83_case : kana_only false (u "コーヒー、らーメン")
  /\ to_katakana std_1_82 (u "コーヒー、らーメン") = Ok (u "コーヒー、ラーメン")
  /\ to_hiragana std_1_82 (u "コーヒー、らーメン") = Ok (u "こうひい、らーめん")
  /\ to_hiragana std_1_82 (u "コーヒー、ラーメン") = Ok (u "こうひい、らあめん")
  /\ to_katakana std_1_82 (u "こうひい、らーめん") = Ok (u "コウヒイ、ラーメン")
  /\ to_romaji std_1_82 (u "コーヒー、らーメン") = Ok (u "koohii,ra-men")
  /\ to_romaji std_1_82 (u "コーヒー、ラーメン") = Ok (u "koohii,raamen")
  /\ to_romaji std_1_82 (u "こうひい、らーめん") = Ok (u "kouhii,ra-men")
  /\ mark_after_hiragana (u "ら・ー") /\ to_romaji std_1_82 (u "ら・ー") = Ok (u "ra/-")
  /\ to_romaji std_1_82 (u "ヴー") = Ok (u "voo") /\ lengthens_o (u "vo") (u "ヴー").
Proof.
  split. { right. split; [intros (c & I & S); apply Compose.romaji_low in S; vm_compute in I; repeat (destruct I as [<- |I]; [vm_compute in S; discriminate S|]); exact I|intros (c & r & Q & S); injection Q as <- _; revert S; vm_compute; intuition discriminate]. }
  do 7 (split; [vm_compute; reflexivity|]). split.
  { exists [], (ch "ら"), (u "・"), []. split; [reflexivity|]. split; [vm_compute; split; discriminate|]. constructor; [right; now left|constructor]. }
  do 2 (split; [vm_compute; reflexivity|]).
  exists (u "ヴ"), (ch "ヴ"), []. split; [reflexivity|]. split; [|right; split; reflexivity].
  exists [], []. split; [reflexivity|]. split; [vm_compute; split; discriminate|]. split; [vm_compute; intuition discriminate|constructor].
Qed.

(** C84.  A text comes back from [to_kana] and then [to_romaji] exactly if it consists of keys that
    their kana are romanised as, with n' for ん in front of a vowel or y and n otherwise, and of
    characters without a reading that are left over. *)
Theorem C84_there_and_back :
  forall E, std_ok E -> forall o o' rv rtv s, upcase_katakana o' = false ->
    to_romaji_with_opt E (u "ゔ") o' = Ok rv -> to_romaji_with_opt E (u "っゔ") o' = Ok rtv ->
    exists t, to_kana_with_opt E s o = Ok t /\
      (to_romaji_with_opt E t o' = Ok s <-> survives (mode_of o) rv rtv s).
Proof. exact C84_there_and_back_proof. Qed.
Print Assumptions C84_there_and_back.

Example C84_case : (forall rv rtv, survives Default rv rtv (u "kon'ya"))
  /\ to_kana std_1_82 (u "kon'ya, kippu 2 kyoku.") = Ok (u "こんや、 きっぷ 2 きょく。")
  /\ to_romaji std_1_82 (u "こんや、 きっぷ 2 きょく。") = Ok (u "kon'ya, kippu 2 kyoku.")
  /\ survives Default (u "vo") (u "vvo") (u "kon'ya, kippu 2 kyoku.")
  /\ survives Default (u "vo") (u "vvo") (u "matchi") /\ to_kana std_1_82 (u "matchi") = Ok (u "まtち")
  /\ ~ survives Default (u "vo") (u "vvo") (u "situ") /\ ~ survives Default (u "vo") (u "vvo") (u "kon'nichiha")
  /\ ~ survives Default (u "vo") (u "vvo") (u "nyya") /\ ~ survives Default (u "vo") (u "vvo") (u "vu")
  /\ survives Ime (u "vo") (u "vvo") (u "kanban") /\ ~ survives Ime (u "vo") (u "vvo") (u "konnichiha").
Proof.
  assert (D : forall o s, survives (mode_of o) (u "vo") (u "vvo") s <->
    match to_kana_with_opt std_1_82 s o with Ok t => to_romaji std_1_82 t = Ok s | _ => False end).
  { intros o s. destruct (C84_there_and_back std_1_82 std_1_82_ok o default_options (u "vo") (u "vvo") s) as (t & -> & H);
      [reflexivity|vm_compute; reflexivity|vm_compute; reflexivity|]. symmetry. exact H. }
  split.
  { intros rv rtv. assert (T : forall k v, pair_mem (k, v) (dict Default) = true -> entry_b v k = true -> negb (existsb (N.eqb (ch "ゔ")) v) = true -> two_way Default rv rtv k v).
    { intros k v A B C. split; [now apply pair_mem_In|]. split; [now apply entry_b_true|]. split; intros [y ->]; discriminate C. }
    change (u "kon'ya") with (u "ko" ++ u "n'" ++ u "ya" ++ []). apply (SV_key _ _ _ (u "ko") (u "こ")); [apply T; vm_compute; reflexivity|discriminate|].
    apply (SV_n' _ _ _ (u "ya") (ch "や") []); [apply T; vm_compute; reflexivity|vm_compute; tauto|constructor]. }
  do 2 (split; [vm_compute; reflexivity|]).
  do 2 (split; [apply (D default_options); vm_compute; reflexivity|]). split; [vm_compute; reflexivity|].
  do 4 (split; [intro H; apply (D default_options) in H; vm_compute in H; discriminate H|]).
  split; [apply (D (Build_options false false false true)); vm_compute; reflexivity|].
  intro H. apply (D (Build_options false false false true)) in H. vm_compute in H. discriminate H.
Qed.

(** C86.  [s] is converted to [t] by [to_romaji] and [t] to [s] by [to_kana] exactly if the two texts
    can be read side by side; so a text comes back from [to_romaji] and then [to_kana] exactly if
    there is a text that it can be read beside. *)
Theorem C86_each_other :
  forall E, std_ok E -> forall o o' rv rtv, upcase_katakana o' = false ->
    to_romaji_with_opt E (u "ゔ") o' = Ok rv -> to_romaji_with_opt E (u "っゔ") o' = Ok rtv ->
    (forall s t, to_romaji_with_opt E s o' = Ok t /\ to_kana_with_opt E t o = Ok s <-> spells (mode_of o) rv rtv s t) /\
    (forall s, exists t, to_romaji_with_opt E s o' = Ok t /\
       (to_kana_with_opt E t o = Ok s <-> exists t', spells (mode_of o) rv rtv s t')).
Proof. exact C86_each_other_proof. Qed.
Print Assumptions C86_each_other.

Example C86_case : spells Default (u "vo") (u "vvo") (u "こんや、 きっぷ 2 きょく。") (u "kon'ya, kippu 2 kyoku.")
  /\ (forall rv rtv, spells Default rv rtv (u "ほんや") (u "hon'ya"))
  /\ (forall t, ~ spells Default (u "vo") (u "vvo") (u "まっちゃ") t) /\ (forall t, ~ spells Default (u "vo") (u "vvo") (u "はなぢ") t)
  /\ (forall t, ~ spells Default (u "vo") (u "vvo") (u "カ") t) /\ (forall t, ~ spells Default (u "vo") (u "vvo") (u "んy") t)
  /\ (forall t, ~ spells Ime (u "vo") (u "vvo") (u "ん") t) /\ spells Obsolete (u "vo") (u "vvo") (u "ゐ") (u "wi")
  /\ (forall t, ~ spells Default (u "vo") (u "vvo") (u "ゐ") t).
Proof.
  assert (D : forall o s t, to_romaji std_1_82 s = Ok t /\ to_kana_with_opt std_1_82 t o = Ok s <-> spells (mode_of o) (u "vo") (u "vvo") s t).
  { intros o s t. destruct (C86_each_other std_1_82 std_1_82_ok o default_options (u "vo") (u "vvo")) as [H _]; [reflexivity|vm_compute; reflexivity|vm_compute; reflexivity|]. exact (H s t). }
  assert (N : forall o s, match to_romaji std_1_82 s with Ok t => to_kana_with_opt std_1_82 t o <> Ok s | _ => True end ->
    forall t, ~ spells (mode_of o) (u "vo") (u "vvo") s t).
  { intros o s K t S. apply D in S. destruct S as [A B]. rewrite A in K. contradiction. }
  split; [apply (D default_options); vm_compute; split; reflexivity|]. split.
  { intros rv rtv. assert (T : forall k v, pair_mem (k, v) (dict Default) = true -> entry_b v k = true -> negb (existsb (N.eqb (ch "ゔ")) v) = true -> two_way Default rv rtv k v).
    { intros k v A B C. split; [now apply pair_mem_In|]. split; [now apply entry_b_true|]. split; intros [y ->]; discriminate C. }
    change (u "hon'ya") with (u "ho" ++ u "n'" ++ u "ya" ++ []). change (u "ほんや") with (u "ほ" ++ u "ん" ++ u "や" ++ []).
    apply (SP_key _ _ _ (u "ho") (u "ほ")); [apply T; vm_compute; reflexivity|discriminate|].
    apply (SP_n' _ _ _ (u "ya") (ch "や") []); [apply T; vm_compute; reflexivity|vm_compute; tauto|constructor]. }
  do 4 (split; [apply (N default_options); vm_compute; discriminate|]).
  split; [apply (N (Build_options false false false true)); vm_compute; discriminate|].
  split; [apply (D (Build_options true false false false)); vm_compute; split; reflexivity|].
  apply (N default_options); vm_compute; discriminate.
Qed.

(** C87.  With [upcase_katakana], [s] is converted to [t] by [to_romaji] and [t] to [s] by [to_kana]
    exactly if the two texts can be read side by side, with upper case keys beside katakana, and no
    long mark of [s] lengthens a vowel.  So a text comes back, from either side, exactly if there is
    such a text beside it. *)
Theorem C87_upper :
  forall E, std_ok E -> forall o o' rv rtv, upcase_katakana o' = true ->
    to_romaji_with_opt E (u "ゔ") o' = Ok rv -> to_romaji_with_opt E (u "っゔ") o' = Ok rtv ->
    (forall s t, to_romaji_with_opt E s o' = Ok t /\ to_kana_with_opt E t o = Ok s <->
       spells_up (mode_of o) rv rtv s t /\ no_long_mark s) /\
    (forall s, exists t, to_romaji_with_opt E s o' = Ok t /\
       (to_kana_with_opt E t o = Ok s <-> exists t', spells_up (mode_of o) rv rtv s t' /\ no_long_mark s)) /\
    (forall t, exists s, to_kana_with_opt E t o = Ok s /\
       (to_romaji_with_opt E s o' = Ok t <-> exists s', spells_up (mode_of o) rv rtv s' t /\ no_long_mark s')).
Proof. exact C87_upper_proof. Qed.
Print Assumptions C87_upper.

Example C87_case :
  spells_up Default (u "vo") (u "vvo") (u "カタカナ と ひらがな、 パン わん ほんや") (u "KATAKANA to hiragana, PAN wan hon'ya")
  /\ (forall rv rtv, spells_up Default rv rtv (u "パンか") (u "PANka"))
  /\ spells_up Default (u "vo") (u "vvo") (u "かー") (u "ka-")
  /\ spells_up Obsolete (u "vo") (u "vvo") (u "ヰ") (u "WI")
  /\ (forall t, ~ (spells_up Default (u "vo") (u "vvo") (u "ヰ") t /\ no_long_mark (u "ヰ")))
  /\ (forall t, ~ (spells_up Default (u "vo") (u "vvo") (u "カー") t /\ no_long_mark (u "カー")))
  /\ (forall t, ~ (spells_up Default (u "vo") (u "vvo") (u "パンヤ") t /\ no_long_mark (u "パンヤ")))
  /\ (forall s, ~ (spells_up Default (u "vo") (u "vvo") s (u "KA-") /\ no_long_mark s))
  /\ (forall s, ~ (spells_up Default (u "vo") (u "vvo") s (u "Ka") /\ no_long_mark s))
  /\ (forall s, ~ (spells_up Default (u "vo") (u "vvo") s (u "N'A") /\ no_long_mark s))
  /\ (forall s, ~ (spells_up Default (u "vo") (u "vvo") s (u "n'A") /\ no_long_mark s)).
Proof.
  pose (O := Build_options false false true false).
  assert (D : forall o s t, to_romaji_with_opt std_1_82 s O = Ok t /\ to_kana_with_opt std_1_82 t o = Ok s <-> spells_up (mode_of o) (u "vo") (u "vvo") s t /\ no_long_mark s).
  { intros o s t. destruct (C87_upper std_1_82 std_1_82_ok o O (u "vo") (u "vvo")) as [H _]; [reflexivity|vm_compute; reflexivity|vm_compute; reflexivity|]. exact (H s t). }
  assert (N : forall o s, match to_romaji_with_opt std_1_82 s O with Ok t => to_kana_with_opt std_1_82 t o <> Ok s | _ => True end ->
    forall t, ~ (spells_up (mode_of o) (u "vo") (u "vvo") s t /\ no_long_mark s)).
  { intros o s K t S. apply D in S. destruct S as [A B]. rewrite A in K. contradiction. }
  assert (M : forall o t, match to_kana_with_opt std_1_82 t o with Ok s => to_romaji_with_opt std_1_82 s O <> Ok t | _ => True end ->
    forall s, ~ (spells_up (mode_of o) (u "vo") (u "vvo") s t /\ no_long_mark s)).
  { intros o s K t S. apply D in S. destruct S as [A B]. rewrite B in K. contradiction. }
  split; [apply (proj1 (D default_options _ _)); vm_compute; split; reflexivity|]. split.
  { intros rv rtv. assert (T : forall k v, pair_mem (k, v) (dict Default) = true -> entry_b v k = true -> negb (existsb (N.eqb (ch "ゔ")) v) = true -> two_way Default rv rtv k v).
    { intros k v A B C. split; [now apply pair_mem_In|]. split; [now apply entry_b_true|]. split; intros [y ->]; discriminate C. }
    change (u "PANka") with (u "PA" ++ u "N" ++ u "ka" ++ []). change (u "パンか") with (u "パ" ++ u "ン" ++ u "か" ++ []).
    apply (SU_upper _ _ _ (u "pa") (u "ぱ")); [apply T; vm_compute; reflexivity|discriminate| |apply uppers_upper; reflexivity|apply h2k_spec; vm_compute; reflexivity|].
    { change (u "pa") with [0x70; 0x61]. unfold lower_letter. intros c [<-|[<-|[]]]; lia. }
    apply (SU_n _ _ _ true); [discriminate| |apply (SU_key _ _ _ (u "ka") (u "か")); [apply T; vm_compute; reflexivity|discriminate|constructor]].
    change (u "ka" ++ []) with [0x6B; 0x61]. intros c t' [= <- _] (d & Ld & Id). apply lowers_lower in Ld. subst d. revert Id. vm_compute. intuition discriminate. }
  split; [apply (proj1 (D default_options _ _)); vm_compute; split; reflexivity|].
  split; [apply (proj1 (D (Build_options true false false false) _ _)); vm_compute; split; reflexivity|].
  do 3 (split; [apply (N default_options); vm_compute; discriminate|]).
  do 3 (split; [apply (M default_options); vm_compute; discriminate|]).
  apply (M default_options); vm_compute; discriminate.
Qed.

(** C93.  With [pass_romaji], a text is the result of [to_katakana] for some text exactly if it has no
    hiragana letter, and of [to_hiragana] exactly if it has no katakana letter but ヵ and ヶ.  Without it,
    a text of romaji or mixed of romaji and kana must moreover be in lower case and a result of [to_kana],
    and (except in IME mode) it must have another kana than っや etc. after n, or else consist of romaji and
    the Japanese punctuation that ASCII punctuation becomes.  For [to_hiragana] the same holds of texts
    with English punctuation in front, and it is also enough that the text begins with English punctuation
    or with what it becomes.  A text with other katakana is a result of [to_hiragana] for a text of ASCII and
    caseless characters exactly if it begins with one of 「」『』 and has only caseless characters, without ‘’“”. *)
Theorem C93_script_results :
  forall E, std_ok E -> forall o t,
    (pass_romaji o = true ->
       ((exists s, to_katakana_with_opt E s o = Ok t) <-> forall c, In c t -> ~ hiragana_letter c) /\
       ((exists s, to_hiragana_with_opt E s o = Ok t) <-> forall c, In c t -> katakana_letter c -> In c (u "ヵヶ"))) /\
    (pass_romaji o = false ->
       ((exists s, to_katakana_with_opt E s o = Ok t) <->
          (forall c, In c t -> ~ hiragana_letter c) /\
          (all_nonempty S_romaji t \/ mixed_text t -> to_lowercase E t = t /\ read_result (mode_of o) from_romaji t)) /\
       ((forall c, In c t -> katakana_letter c -> In c (u "ヵヶ")) ->
          ((exists s, to_hiragana_with_opt E s o = Ok t) <->
             (mixed_text t \/ all_nonempty S_romaji t \/ starts_with_punct t ->
                to_lowercase E t = t /\ read_result (mode_of o) from_hiragana t))) /\
       ((exists c, In c t /\ katakana_letter c /\ ~ In c (u "ヵヶ")) ->
          ((exists s, ascii_or_caseless s /\ to_hiragana_with_opt E s o = Ok t) <->
             (exists q r, t = q :: r /\ In q (u "「」『』")) /\ forall c, In c t -> caseless c = true /\ ~ smart_quote c))).
Proof. exact C93_script_results_proof. Qed.
Print Assumptions C93_script_results.

Example C93_case : to_katakana std_1_82 (u "漢nyyaらx") = Ok (u "漢nッヤラx")
  /\ read_result Default from_romaji (u "nッヤ。x") /\ ~ read_result Default from_romaji (u "漢nッヤ")
  /\ to_hiragana std_1_82 (u "‘nyya漢") = Ok (u "「nっや漢") /\ ~ read_result Default from_hiragana (u "漢nっや")
  /\ to_hiragana std_1_82 (u "‘カ’") = Ok (u "「カ」") /\ (exists c, In c (u "「カ」") /\ katakana_letter c /\ ~ In c (u "ヵヶ"))
  /\ (exists s, to_katakana std_1_82 s = Ok (u "nッヤ。x")) /\ ~ (exists s, to_katakana std_1_82 s = Ok (u "漢nッヤ"))
  /\ ~ (exists s, to_hiragana std_1_82 s = Ok (u "漢nっや")).
Proof.
  assert (N1 : ~ read_result Default from_romaji (u "漢nッヤ")).
  { intros [_ A]. destruct (A ltac:(discriminate) _ (apart_lo _)) as [(c & I & K)|F].
    - apply Complete.kana_b_spec in K. vm_compute in I. repeat (destruct I as [<-|I]; [vm_compute in K; discriminate K|]). exact I.
    - specialize (F (ch "漢") ltac:(vm_compute; auto)). revert F. vm_compute. intuition congruence. }
  assert (N2 : ~ read_result Default from_hiragana (u "漢nっや")).
  { intros [_ A]. destruct (A ltac:(discriminate) _ (apart_lo _)) as [(c & I & K)|[F|(c & r & Q & F)]].
    - apply Complete.kana_b_spec in K. vm_compute in I. repeat (destruct I as [<-|I]; [vm_compute in K; discriminate K|]). exact I.
    - specialize (F (ch "漢") ltac:(vm_compute; auto)). revert F. vm_compute. intuition congruence.
    - vm_compute in Q. injection Q as <- _. revert F. vm_compute. intuition congruence. }
  assert (Y : to_katakana std_1_82 (u "nyya.x") = Ok (u "nッヤ。x")) by (vm_compute; reflexivity).
  assert (M1 : all_nonempty S_romaji (u "漢nッヤ") \/ mixed_text (u "漢nッヤ")) by (right; apply mixed_spec; vm_compute; reflexivity).
  assert (M2 : mixed_text (u "漢nっや")) by (apply mixed_spec; vm_compute; reflexivity).
  destruct (C93_script_results std_1_82 std_1_82_ok default_options (u "nッヤ。x")) as [_ T1].
  destruct (C93_script_results std_1_82 std_1_82_ok default_options (u "漢nッヤ")) as [_ T2].
  destruct (C93_script_results std_1_82 std_1_82_ok default_options (u "漢nっや")) as [_ T3].
  specialize (T1 eq_refl). specialize (T2 eq_refl). specialize (T3 eq_refl).
  split; [vm_compute; reflexivity|]. split.
  { apply (proj1 (proj1 T1)); [now exists (u "nyya.x")|]. right. apply mixed_spec. vm_compute. reflexivity. }
  split; [exact N1|]. split; [vm_compute; reflexivity|]. split; [exact N2|]. split; [vm_compute; reflexivity|].
  split. { exists (ch "カ"). split; [vm_compute; auto|]. split; [vm_compute; intuition discriminate|]. vm_compute. intuition discriminate. }
  split; [now exists (u "nyya.x")|]. split.
  - intro X. apply (proj1 (proj1 T2)) in X. exact (N1 (proj2 (proj2 X M1))).
  - intro X. assert (Nk : forall c, In c (u "漢nっや") -> katakana_letter c -> In c (u "ヵヶ")).
    { intros c I K. exfalso. unfold katakana_letter in K. vm_compute in I. repeat (destruct I as [<-|I]; [lia|]). exact I. }
    exact (N2 (proj2 (proj1 (proj1 (proj2 T3) Nk) X (or_introl M2)))).
Qed.
