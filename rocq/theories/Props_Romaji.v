(** * C23-C34, C55, C69 and C70: to_romaji, and the round trips *)
From Verif Require Import Base Std StdInstances Strings Convert KanaSpec ScriptSpec RomajiSpec Predicates
  ReadBack LibrarySpec LibraryProofs ChoiceSpec Results_Romaji.

(** C23.  Hiragana text made of standard morae is romanised in Hepburn spelling, with all
    options. *)
Theorem C23_hepburn :
  forall E, std_ok E -> forall o ms, Forall standard ms ->
    to_romaji_with_opt E (kana_text ms) o = Ok (hepburn ms).
Proof. exact C23_hepburn_proof. Qed.
Print Assumptions C23_hepburn.

Example C23_case :
  let ms := [Syl (u "し") (u "shi"); Nn; Syl (u "よ") (u "yo"); Syl (u "う") (u "u"); Gem (u "ちゃ") (u "cha"); Nn; Syl (u "か") (u "ka")] in
  Forall standard ms /\ kana_text ms = u "しんようっちゃんか" /\ hepburn ms = u "shin'youtchanka"
  /\ to_romaji std_1_82 (u "しんようっちゃんか") = Ok (u "shin'youtchanka").
Proof.
  split; [|vm_compute; auto]. apply standard_check. vm_compute. reflexivity.
Qed.

(** C24.  In katakana, each ー repeats the vowel of its mora (after ン it disappears); with
    [upcase_katakana] the result is in upper case. *)
Theorem C24_katakana_long_marks :
  forall E, std_ok E -> forall o ms t, Forall standard (map fst ms) -> marked_kana ms t ->
    (upcase_katakana o = false -> to_romaji_with_opt E t o = Ok (marked_hepburn ms)) /\
    (upcase_katakana o = true -> forall r, to_romaji_with_opt E t o = Ok r <-> Forall2 uppers (marked_hepburn ms) r).
Proof. exact C24_katakana_long_marks_proof. Qed.
Print Assumptions C24_katakana_long_marks.

Example C24_case :
  let ms := [(Syl (u "ら") (u "ra"), 1%nat); (Syl (u "め") (u "me"), 0%nat); (Nn, 2%nat); (Gem (u "しょ") (u "sho"), 3%nat)] in
  Forall standard (map fst ms) /\ marked_kana ms (u "ラーメンーーッショーーー") /\ marked_hepburn ms = u "raamensshoooo"
  /\ to_romaji std_1_82 (u "ラーメンーーッショーーー") = Ok (u "raamensshoooo").
Proof.
  split; [|split; [|vm_compute; auto]].
  - apply standard_check. vm_compute. reflexivity.
  - exists [u "ラー"; u "メ"; u "ンーー"; u "ッショーーー"]. split; [|vm_compute; reflexivity].
    constructor; [exists (u "ラ")|constructor; [exists (u "メ")|constructor; [exists (u "ン")|constructor; [exists (u "ッショ")|constructor]]]];
      (split; [|vm_compute; reflexivity]); apply KanaDict.h2k_spec; vm_compute; reflexivity.
Qed.

(** C25.  Texts without long marks that are equal once written in hiragana have the same
    romaji. *)
Theorem C25_script_independent :
  forall E, std_ok E -> forall s s' h, ~ In long_mark s -> ~ In long_mark s' ->
    Forall2 hiragana_for s h -> Forall2 hiragana_for s' h -> to_romaji E s = to_romaji E s'.
Proof. exact C25_script_independent_proof. Qed.
Print Assumptions C25_script_independent.

Example C25_case : Forall2 hiragana_for (u "カたカな!") (u "かたかな!") /\ Forall2 hiragana_for (u "かタカナ!") (u "かたかな!")
  /\ to_romaji std_1_82 (u "カたカな!") = Ok (u "katakana!").
Proof.
  split; [|split; [|vm_compute; reflexivity]]; apply ScriptProofs.k2hc_map; vm_compute; reflexivity.
Qed.

(** C26.  Kana text (without ゕ ゖ ヵ ヶ) is romanised to pure ASCII. *)
Theorem C26_kana_to_ascii :
  forall E, std_ok E -> forall s o t,
    (forall c, In c s -> (S_hiragana c \/ S_katakana c) /\ ~ In c (u "ゕゖヵヶ")) ->
    to_romaji_with_opt E s o = Ok t -> forall c, In c t -> c < 128.
Proof. exact C26_kana_to_ascii_proof. Qed.
Print Assumptions C26_kana_to_ascii.

Example C26_case : to_romaji std_1_82 (u "ヷヺぁっーヴ・ゎ") = Ok (u "wawoa-vo/wa")
  /\ to_romaji std_1_82 (u "ゖ") = Ok (u "ゖ").
Proof. vm_compute. auto. Qed.

(** C27.  Text without kana and Japanese punctuation is unchanged; romanising twice, with
    any options, is romanising once. *)
Theorem C27_foreign_text_and_idempotence :
  forall E, std_ok E -> forall s o,
    ((forall c, In c s -> ~ S_hiragana c /\ ~ S_katakana c /\ ~ S_ja_punct c) ->
       to_romaji_with_opt E s o = Ok s) /\
    (forall o' t, to_romaji_with_opt E s o = Ok t -> to_romaji_with_opt E t o' = Ok t).
Proof. exact C27_foreign_text_and_idempotence_proof. Qed.
Print Assumptions C27_foreign_text_and_idempotence.

Example C27_case : to_romaji std_1_82 (u "漢字kanji１23 é") = Ok (u "漢字kanji１23 é")
  /\ to_romaji std_1_82 (u "ヶ「ゖ」゛") = Ok (u "ヶ‘ゖ’゛").
Proof. vm_compute. auto. Qed.

(** C28.  [upcase_katakana] affects only letter case: the results agree up to ASCII case, the
    result is all upper case for katakana text and unaffected for text without katakana. *)
Theorem C28_upcase_katakana :
  forall E, std_ok E -> forall s o t t', upcase_katakana o = true -> to_romaji E s = Ok t ->
    to_romaji_with_opt E s o = Ok t' ->
    same_up_to_case t t' /\
    ((forall c, In c s -> S_katakana c) -> Forall2 uppers t t') /\
    ((forall c, In c s -> ~ S_katakana c) -> t' = t).
Proof. exact C28_upcase_katakana_proof. Qed.
Print Assumptions C28_upcase_katakana.

Definition upcase : options := Build_options false false true false.
Example C28_case : to_romaji_with_opt std_1_82 (u "ワニカニがすごい漢") upcase = Ok (u "WANIKANIgasugoi漢").
Proof. vm_compute. reflexivity. Qed.

(** C29.  Partial: every text is cut into pieces whose hiragana is romanised key by key.  A piece is
    shown in upper case exactly when the characters of the text that stand at the position of its
    hiragana are katakana.  The case is right exactly when these and the piece itself are both
    katakana or both not, and always if no long mark follows ッ or ン.  Missing: the other texts,
    for which it is false (see [C29_katakana_parts_refuted]). *)
Theorem C29_katakana_parts_partial :
  forall E, std_ok E -> forall s o t, to_romaji_with_opt E s o = Ok t ->
    exists ps rest, concat (map p_text ps) = s /\ pieces_of [] ps /\ concat (map p_shown ps) = t /\
      concat (map p_seen ps) ++ rest = s /\ Forall (cut_piece (upcase_katakana o)) ps /\
      (forall p, In p ps -> right_case (upcase_katakana o) p <->
         upcase_katakana o = false \/ ~ is_key (p_kana p) \/
         (forall c, In c (p_romaji p) -> ~ lower_letter c) \/
         (Forall S_kata (p_seen p) <-> Forall S_kata (p_text p))) /\
      (drops_no_mark s -> Forall (right_case (upcase_katakana o)) ps).
Proof. exact C29_katakana_parts_partial_proof. Qed.
Print Assumptions C29_katakana_parts_partial.

Example C29_case : to_romaji_with_opt std_1_82 (u "キャかッたートーっタ") upcase = Ok (u "KYAkatta-TOOtta")
  /\ to_romaji_with_opt std_1_82 (u "ッタ") upcase = Ok (u "TTA")
  /\ drops_no_mark (u "キャかッたートーっタ").
Proof.
  split; [vm_compute; reflexivity|]. split; [vm_compute; reflexivity|].
  apply drops_check. vm_compute. reflexivity.
Qed.

(** C29.  Refuted: a mark after ン disappears, positions shift, and the hiragana あ is taken
    for the katakana before it. *)
Theorem C29_katakana_parts_refuted :
  forall E, std_ok E -> exists k h rk rh r o, upcase_katakana o = true /\
    (forall c, In c k -> S_katakana c) /\ (forall c, In c h -> hiragana_letter c) /\
    to_romaji_with_opt E k o = Ok rk /\ to_romaji_with_opt E h o = Ok rh /\
    to_romaji_with_opt E (k ++ h) o = Ok (rk ++ r) /\ Forall2 uppers rh r /\ r <> rh.
Proof. exact C29_katakana_parts_refuted_proof. Qed.
Print Assumptions C29_katakana_parts_refuted.

Example C29_witness : to_romaji_with_opt std_1_82 (u "ンーナあ") upcase = Ok (u "NNAA")
  /\ to_romaji_with_opt std_1_82 (u "ンナあ") upcase = Ok (u "NNAa").
Proof. vm_compute. auto. Qed.

(** C30.  Partial: the romaji of a text is the same with every conforming standard library (any
    binary search, any Unicode version) exactly if the text has neither ヴ nor ゔ.  Missing:
    the other texts, for which the claim is false (see [C30_determined_refuted]; for the
    libraries actually released see C69). *)
Theorem C30_determined_partial :
  forall s o,
    (forall E E', std_ok E -> std_ok E' -> to_romaji_with_opt E s o = to_romaji_with_opt E' s o) <->
    ~ In (ch "ヴ") s /\ ~ In (ch "ゔ") s.
Proof. exact C30_determined_partial_proof. Qed.
Print Assumptions C30_determined_partial.

Example C30_case : to_romaji std_1_82 (u "ばヷびづヂー") = to_romaji std_1_52 (u "ばヷびづヂー")
  /\ to_romaji std_1_52 (u "ばヷびづヂー") = Ok (u "bawabizujii").
Proof. vm_compute. auto. Qed.
Example C30_other_case : std_ok (std_pick 1) /\ std_ok (std_pick 4)
  /\ to_romaji (std_pick 1) (u "イヴ") = Ok (u "iva") /\ to_romaji (std_pick 4) (u "イヴ") = Ok (u "ivo").
Proof. split; [apply std_pick_ok|]. split; [apply std_pick_ok|]. vm_compute. auto. Qed.

(** C30.  Refuted: ゔ does not romanise as vu, and two conforming libraries differ on っゔ. *)
Theorem C30_determined_refuted :
  (exists E s, std_ok E /\ s = u "ゔ" /\ to_romaji E s <> Ok (u "vu")) /\
  (exists E E' s, std_ok E /\ std_ok E' /\ to_romaji E s <> to_romaji E' s).
Proof. exact C30_determined_refuted_proof. Qed.
Print Assumptions C30_determined_refuted.

Example C30_witness : to_romaji std_1_82 (u "ゔ") = Ok (u "vo") /\ to_romaji std_1_52 (u "ゔ") = Ok (u "vo")
  /\ to_romaji std_1_82 (u "っゔ") = Ok (u "vvo") /\ to_romaji std_1_52 (u "っゔ") = Ok (u "vve")
  /\ to_romaji std_1_82 (u "ヴァイオリン") = Ok (u "voaiorin").
Proof. vm_compute. auto. Qed.

(** C31.  At most three characters of romaji per character of text. *)
Theorem C31_length :
  forall E, std_ok E -> forall s o t, to_romaji_with_opt E s o = Ok t -> (length t <= 3 * length s)%nat.
Proof. exact C31_length_proof. Qed.
Print Assumptions C31_length.

Example C31_case : to_romaji std_1_82 (u "つし") = Ok (u "tsushi").
Proof. vm_compute. reflexivity. Qed.

(** C32.  Kana text of reversible morae survives the way through romaji and back, in either
    script. *)
Theorem C32_kana_round_trip :
  forall E, std_ok E -> forall ms, Forall reversible ms ->
    (exists r, to_romaji E (kana_text ms) = Ok r /\ to_kana E r = Ok (kana_text ms)) /\
    (forall k, katakana_text ms k -> exists r, to_romaji E k = Ok r /\ to_katakana E r = Ok k).
Proof. exact C32_kana_round_trip_proof. Qed.
Print Assumptions C32_kana_round_trip.

Example C32_case :
  let ms := [Syl (u "し") (u "shi"); Nn; Syl (u "よ") (u "yo"); Gem (u "しょ") (u "sho"); Syl (u "を") (u "wo")] in
  Forall reversible ms /\ kana_text ms = u "しんよっしょを"
  /\ to_romaji std_1_82 (u "しんよっしょを") = Ok (u "shin'yosshowo") /\ to_kana std_1_82 (u "shin'yosshowo") = Ok (u "しんよっしょを").
Proof.
  split; [|vm_compute; auto]. apply reversible_check. vm_compute. reflexivity.
Qed.

(** C33.  Partial: what romaji of standard morae is read back as.  Outside IME mode ぢ, づ and
    their compounds as じ, ず, ...; ゐ, ゑ as うぃ, うぇ (with obsolete kana only after っ);
    っち ... as t and ち ...; every other mora as itself.  The text survives exactly if all
    its morae are of the last kind.  In IME mode ん is read as [ime_read_back] says, and the text
    survives exactly if besides every ん comes before a vowel or y.  Missing: the others, see
    [C33_all_morae_refuted]. *)
Theorem C33_all_morae_partial :
  forall E, std_ok E -> forall o o' ms, Forall standard ms ->
    exists r, to_romaji_with_opt E (kana_text ms) o = Ok r /\
      (imemode o' = false \/ use_obsolete_kana o' = true ->
         (forall t, to_kana_with_opt E r o' = Ok t <-> text_read_back (use_obsolete_kana o') ms t) /\
         (to_kana_with_opt E r o' = Ok (kana_text ms) <-> Forall (recovered (use_obsolete_kana o')) ms)) /\
      (imemode o' = true -> use_obsolete_kana o' = false ->
         (forall t, to_kana_with_opt E r o' = Ok t <-> ime_read_back ms t) /\
         (to_kana_with_opt E r o' = Ok (kana_text ms) <-> Forall (recovered false) ms /\ n_before_vowel ms)).
Proof. exact C33_all_morae_partial_proof. Qed.
Print Assumptions C33_all_morae_partial.

Example C33_case :
  let ms := [Syl (u "ま") (u "ma"); Gem (u "ちゃ") (u "cha"); Nn; Syl (u "ゐ") (u "wi"); Gem (u "づ") (u "zu"); Syl (u "ぢ") (u "ji")] in
  Forall standard ms /\ kana_text ms = u "まっちゃんゐっづぢ"
  /\ text_read_back true ms (u "まtちゃんゐっずじ") /\ text_read_back false ms (u "まtちゃんうぃっずじ")
  /\ to_romaji std_1_82 (u "まっちゃんゐっづぢ") = Ok (u "matchanwizzuji")
  /\ to_kana std_1_82 (u "matchanwizzuji") = Ok (u "まtちゃんうぃっずじ").
Proof.
  split; [apply standard_check; vm_compute; reflexivity|]. split; [vm_compute; reflexivity|].
  split; [apply text_rb; vm_compute; reflexivity|]. split; [apply text_rb; vm_compute; reflexivity|].
  split; vm_compute; reflexivity.
Qed.
Example C33_ime :
  let ime := Build_options false false false true in
  to_romaji std_1_82 (u "おんなしんかんんあ") = Ok (u "onnashinkann'a")
  /\ to_kana_with_opt std_1_82 (u "onnashinkann'a") ime = Ok (u "おんあしnかん'あ")
  /\ to_romaji std_1_82 (u "しんあい") = Ok (u "shin'ai")
  /\ to_kana_with_opt std_1_82 (u "shin'ai") ime = Ok (u "しんあい").
Proof. vm_compute. auto. Qed.

(** C33.  Refuted: spellings with tch are no keys of [to_kana], and ぢ, づ, ゐ, ゑ are read
    back as じ, ず, うぃ, うぇ.  (The morae for which it holds are in
    [C32_kana_round_trip].) *)
Theorem C33_all_morae_refuted :
  forall E, std_ok E -> exists ms r t, Forall standard ms /\ to_romaji E (kana_text ms) = Ok r /\
    to_kana E r = Ok t /\ t <> kana_text ms.
Proof. exact C33_all_morae_refuted_proof. Qed.
Print Assumptions C33_all_morae_refuted.

Example C33_witness : to_romaji std_1_82 (u "まっちゃ") = Ok (u "matcha") /\ to_kana std_1_82 (u "matcha") = Ok (u "まtちゃ")
  /\ to_romaji std_1_82 (u "ぢゐ") = Ok (u "jiwi") /\ to_kana std_1_82 (u "jiwi") = Ok (u "じうぃ").
Proof. vm_compute. auto. Qed.

(** C34.  Hepburn spellings of reversible morae survive the way through kana and back, in
    either script. *)
Theorem C34_romaji_round_trip :
  forall E, std_ok E -> forall ms, Forall reversible ms ->
    (to_kana E (hepburn ms) = Ok (kana_text ms) /\ to_romaji E (kana_text ms) = Ok (hepburn ms)) /\
    (exists k, katakana_text ms k /\ to_katakana E (hepburn ms) = Ok k /\ to_romaji E k = Ok (hepburn ms)).
Proof. exact C34_romaji_round_trip_proof. Qed.
Print Assumptions C34_romaji_round_trip.

Example C34_case : to_katakana std_1_82 (u "kin'yuubi") = Ok (u "キンユウビ") /\ to_romaji std_1_82 (u "キンユウビ") = Ok (u "kin'yuubi").
Proof. vm_compute. auto. Qed.

(** C55.  Full description of [to_romaji]: write the text in hiragana ([hiragana_text], marks
    after the o row being お), then substitute longest dictionary keys from left to right,
    upper-casing a piece if the characters of the original text at the same positions are
    all katakana.  Without ヴ and ゔ this determines the result. *)
Theorem C55_to_romaji_romanises :
  forall E, std_ok E -> forall s o t,
    (to_romaji_with_opt E s o = Ok t ->
       exists h, hiragana_text (u "お") [] s h /\ romanises (upcase_katakana o) s h t) /\
    (~ In (ch "ヴ") s -> ~ In (ch "ゔ") s ->
       (exists h, hiragana_text (u "お") [] s h /\ romanises (upcase_katakana o) s h t) ->
       to_romaji_with_opt E s o = Ok t).
Proof. exact C55_to_romaji_romanises_proof. Qed.
Print Assumptions C55_to_romaji_romanises.

Example C55_case : exists h, hiragana_text (u "お") [] (u "トーキョーのイヌ") h /\
  romanises true (u "トーキョーのイヌ") h (u "TOOKYOOnoINU").
Proof.
  apply (C55_to_romaji_romanises std_1_82 std_1_82_ok (u "トーキョーのイヌ") upcase). vm_compute. reflexivity.
Qed.

(** C69.  The library of Rust 1.52 to 1.81 and that of Rust 1.82 and later romanise a text alike
    exactly if no っ or ッ comes before ゔ or ヴ. *)
Theorem C69_releases :
  forall s o, to_romaji_with_opt std_1_52 s o = to_romaji_with_opt std_1_82 s o <-> ~ double_v s.
Proof. exact C69_releases_proof. Qed.
Print Assumptions C69_releases.

Example C69_case :
  to_romaji std_1_52 (u "ヴァーナッーヴ") = Ok (u "voaanavve")
  /\ to_romaji std_1_82 (u "ヴァーナッーヴ") = Ok (u "voaanavvo")
  /\ double_v (u "ヴァーナッーヴ").
Proof.
  split; [vm_compute; reflexivity|]. split; [vm_compute; reflexivity|].
  exists (u "ヴァーナ"), (ch "ッ"), [long_mark], (ch "ヴ"), []. split; [reflexivity|]. split; [vm_compute; auto|].
  right. split; [reflexivity|]. repeat constructor.
Qed.
Example C69_alike : to_romaji std_1_52 (u "ッあヴーっ・ヴ") = to_romaji std_1_82 (u "ッあヴーっ・ヴ").
Proof. vm_compute. reflexivity. Qed.

(** C70.  Every conforming standard library amounts to a choice of one of the five readings of ゔ
    and of one of those of っゔ, which determines the romaji, and the hiragana, of every text;
    every choice is made by some library.  Rust 1.52 to 1.81 choose vo and vve, Rust 1.82 and
    later vo and vvo. *)
Theorem C70_choice_of_readings :
  let chooses E r r' := forall s o t,
    (to_romaji_with_opt E s o = Ok t <->
       exists h, chosen_text r (u "お") [] s h /\ substitutes (chosen_dict r r') (upcase_katakana o) s h t) /\
    (pass_romaji o = true -> (to_hiragana_with_opt E s o = Ok t <-> chosen_text r (u "う") [] s t)) in
  (forall E, std_ok E -> exists r r', (r < 5)%nat /\ (r' < 5)%nat /\ chooses E r r') /\
  (forall r r', (r < 5)%nat -> (r' < 5)%nat -> exists E, std_ok E /\ chooses E r r') /\
  chooses std_1_52 4%nat 3%nat /\ chooses std_1_82 4%nat 4%nat.
Proof. exact C70_choice_of_readings_proof. Qed.
Print Assumptions C70_choice_of_readings.

Example C70_case : exists h, chosen_text 4 (u "お") [] (u "ヴーッヴャ") h /\
  substitutes (chosen_dict 4 3) true (u "ヴーッヴャ") h (u "VOOVVEYA").
Proof.
  apply (proj1 (proj2 (proj2 C70_choice_of_readings)) (u "ヴーッヴャ") (Build_options false false true false) (u "VOOVVEYA")).
  vm_compute. reflexivity.
Qed.
Example C70_dict : In (u "ゔゃ", u "vya") (chosen_dict 0 4) /\ In (u "っゔ", u "vvo") (chosen_dict 0 4)
  /\ forall v, ~ In (u "ゔゃ", v) (chosen_dict 4 4).
Proof.
  split; [apply KanaDict.pair_mem_In; vm_compute; reflexivity|]. split; [apply KanaDict.pair_mem_In; vm_compute; reflexivity|].
  intros v I. assert (H : existsb (fun e => str_eqb (fst e) (u "ゔゃ")) (chosen_dict 4 4) = true).
  { apply existsb_exists. exists (u "ゔゃ", v). split; [exact I|]. vm_compute. reflexivity. }
  vm_compute in H. discriminate H.
Qed.
