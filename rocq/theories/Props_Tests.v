(** * C103: the range tests and regex runs of the predicates, the tokenizer and trimming *)
From Verif Require Import Base Std Constants Chars Strings Tokenize Convert Predicates TokenSpec Work Results_Tests.

(** C103.  The counting versions of Work.v return what the model of the code returns. *)
Theorem C103_same :
  (forall s, value (is_hiragana_w s) = is_hiragana s /\ value (is_katakana_w s) = is_katakana s /\ value (is_kana_w s) = is_kana s
     /\ value (is_kanji_w s) = is_kanji s /\ value (contains_kanji_w s) = contains_kanji s /\ value (is_japanese_w s) = is_japanese s
     /\ value (is_romaji_w s) = is_romaji s /\ value (is_mixed_w s) = is_mixed s)
  /\ (forall s b, value (is_mixed_pass_kanji_w s b) = is_mixed_pass_kanji s b)
  /\ (forall s r, value (is_japanese_with_whitelist_w s r) = is_japanese_with_whitelist s r
       /\ value (is_romaji_with_whitelist_w s r) = is_romaji_with_whitelist s r)
  /\ (forall s b, value (tokenize_detailed_w s b) = tokenize_detailed s b /\ value (tokenize_with_opt_w s b) = tokenize_with_opt s b)
  /\ (forall s b m, value (trim_okurigana_with_opt_w s b m) = trim_okurigana_with_opt s b m)
  /\ (forall s o, value (katakana_branch_w s o) = negb (pass_romaji o) && (is_romaji s || is_mixed s)
       /\ value (hiragana_branch_w s o) = negb (pass_romaji o)
            && (is_mixed s || is_romaji s || match s with [] => false | c :: _ => is_char_english_punctuation c end)).
Proof. exact C103_same_proof. Qed.
Print Assumptions C103_same.

Example C103_same_case :
  value (is_japanese_w (u "泣き虫。")) = true /\ value (tokenize_with_opt_w (u "ふふフフ") false) = [u "ふふ"; u "フフ"]
  /\ value (trim_okurigana_with_opt_w (u "踏み込む") false None) = Ok (u "踏み込").
Proof. vm_compute. auto. Qed.

(** C103.  The tokenizer makes at most 42 range tests per character (39 with compact tokens), exactly that many if no
    character is Japanese or English punctuation and none is romaji but Ū and ū, and none exactly if there are only
    spaces.  The tests of two texts put together are the sum of the tests of each. *)
Theorem C103_tokenizer :
  forall s (compact : bool),
    let most := (if compact then 39 else 42)%nat in
    let t := tests (tokenize_detailed_w s compact) in
    tests (tokenize_with_opt_w s compact) = t
    /\ (t <= most * length s)%nat
    /\ (t = (most * length s)%nat <-> Forall (fun c => ~ S_japanese c /\ ~ S_en_punct c /\ (S_romaji c -> c = ch "Ū" \/ c = ch "ū")) s)
    /\ (t = 0%nat <-> Forall (fun c => c = 0x20 \/ c = 0x3000) s)
    /\ (forall s1 s2, s = s1 ++ s2 -> t = (tests (tokenize_detailed_w s1 compact) + tests (tokenize_detailed_w s2 compact))%nat).
Proof. exact C103_tokenizer_proof. Qed.
Print Assumptions C103_tokenizer.

Example C103_tokenizer_case :
  Forall (fun c => ~ S_japanese c /\ ~ S_en_punct c /\ (S_romaji c -> c = ch "Ū" \/ c = ch "ū")) (u "ūд")
  /\ tests (tokenize_with_opt_w (u "ūд") false) = (42 * 2)%nat /\ tests (tokenize_with_opt_w (u "ūд") true) = (39 * 2)%nat
  /\ tests (tokenize_with_opt_w (u "  　") true) = 0%nat /\ tests (tokenize_with_opt_w (u "ōa") false) = (41 + 37)%nat.
Proof.
  split; [|vm_compute; auto].
  change (u "ūд") with [0x16B; 0x434]. constructor; [|constructor; [|constructor]].
  - rewrite <- japanese_spec, <- en_punct_spec. split; [discriminate|]. split; [discriminate|]. right. reflexivity.
  - rewrite <- japanese_spec, <- en_punct_spec, <- romaji_spec. repeat split; discriminate.
Qed.

(** C103.  A Latin letter takes twice as many range tests as a kanji or kana. *)
Theorem C103_kinds :
  forall s,
    (Forall (fun c => ch "A" <= c <= ch "Z" \/ ch "a" <= c <= ch "z") s ->
       tests (tokenize_detailed_w s false) = (37 * length s)%nat /\ tests (tokenize_detailed_w s true) = (34 * length s)%nat)
    /\ (Forall (fun c => 0x4E00 <= c <= 0x9FAF) s ->
       tests (tokenize_detailed_w s false) = (17 * length s)%nat /\ tests (tokenize_detailed_w s true) = (20 * length s)%nat)
    /\ (Forall (fun c => ch "ぁ" <= c <= ch "ゖ") s ->
       tests (tokenize_detailed_w s false) = (18 * length s)%nat /\ tests (tokenize_detailed_w s true) = (22 * length s)%nat)
    /\ (Forall (fun c => ch "ァ" <= c <= ch "ヺ") s ->
       tests (tokenize_detailed_w s false) = (19 * length s)%nat /\ tests (tokenize_detailed_w s true) = (23 * length s)%nat).
Proof. exact C103_kinds_proof. Qed.
Print Assumptions C103_kinds.

Example C103_kinds_case :
  Forall (fun c => ch "A" <= c <= ch "Z" \/ ch "a" <= c <= ch "z") (u "abcZ") /\ tests (tokenize_detailed_w (u "abcZ") false) = 148%nat
  /\ Forall (fun c => 0x4E00 <= c <= 0x9FAF) (u "漢字") /\ tests (tokenize_detailed_w (u "漢字") false) = 34%nat
  /\ tests (tokenize_detailed_w (u "漢かa") false) = 72%nat.
Proof.
  split; [apply Forall_forall; intros c H; vm_compute in H; repeat destruct H as [<-|H]; try contradiction;
    vm_compute; ((left; split; discriminate) || (right; split; discriminate))|].
  split; [reflexivity|]. split; [apply Forall_forall; intros c H; vm_compute in H; repeat destruct H as [<-|H]; try contradiction;
    vm_compute; split; discriminate|]. split; reflexivity.
Qed.

(** C103.  The range tests of the predicates on texts; each bound is reached by some text of every length. *)
Theorem C103_predicates :
  forall s n, n = length s ->
    (tests (is_hiragana_w s) <= n)%nat /\ (tests (is_katakana_w s) <= n)%nat /\ (tests (is_kana_w s) <= 2 * n)%nat
    /\ (tests (is_kanji_w s) <= n)%nat /\ (tests (contains_kanji_w s) <= n)%nat /\ (tests (is_japanese_w s) <= 17 * n)%nat
    /\ (tests (is_romaji_w s) <= 6 * n)%nat /\ (tests (is_mixed_w s) <= 8 * n)%nat /\ (tests (is_mixed_pass_kanji_w s false) <= 9 * n)%nat
    /\ tests (is_hiragana_w (repeat (ch "あ") n)) = n /\ tests (is_katakana_w (repeat (ch "ア") n)) = n
    /\ tests (is_kana_w (repeat (ch "ア") n)) = (2 * n)%nat /\ tests (is_kanji_w (repeat (ch "漢") n)) = n
    /\ tests (contains_kanji_w (repeat (ch "か") n)) = n /\ tests (is_japanese_w (repeat (ch "￡") n)) = (17 * n)%nat
    /\ tests (is_romaji_w (repeat (ch "ū") n)) = (6 * n)%nat
    /\ tests (is_mixed_w (repeat (ch "漢") n ++ u "ア")) = (8 * (n + 1))%nat
    /\ tests (is_mixed_pass_kanji_w (repeat (ch "々") n ++ u "ア") false) = (9 * (n + 1))%nat.
Proof. exact C103_predicates_proof. Qed.
Print Assumptions C103_predicates.

Example C103_predicates_case : tests (is_japanese_w (u "￡a")) = 34%nat /\ tests (is_japanese_w (u "a￡")) = 17%nat
  /\ tests (is_mixed_w (u "漢漢ア")) = 24%nat /\ tests (is_mixed_w (u "あa")) = 8%nat.
Proof. vm_compute. auto. Qed.

(** C103.  The predicates stop at the first character that decides: what follows it is not looked at. *)
Theorem C103_stop :
  forall s x t,
    (~ S_hiragana x -> is_hiragana_w (s ++ x :: t) = is_hiragana_w (s ++ [x]))
    /\ (~ S_katakana x -> is_katakana_w (s ++ x :: t) = is_katakana_w (s ++ [x]))
    /\ (~ S_kana x -> is_kana_w (s ++ x :: t) = is_kana_w (s ++ [x]))
    /\ (~ S_kanji x -> is_kanji_w (s ++ x :: t) = is_kanji_w (s ++ [x]))
    /\ (~ S_japanese x -> is_japanese_w (s ++ x :: t) = is_japanese_w (s ++ [x]))
    /\ (~ S_romaji x -> is_romaji_w (s ++ x :: t) = is_romaji_w (s ++ [x]))
    /\ (S_kanji x -> contains_kanji_w (s ++ x :: t) = contains_kanji_w (s ++ [x])).
Proof. exact C103_stop_proof. Qed.
Print Assumptions C103_stop.

Example C103_stop_case : ~ S_hiragana (ch "a") /\ tests (is_hiragana_w (u "ああaあああ")) = 3%nat /\ tests (is_hiragana_w (u "ああa")) = 3%nat
  /\ S_kanji (ch "漢") /\ tests (contains_kanji_w (u "あ漢あああ")) = 2%nat.
Proof.
  split; [rewrite <- hiragana_spec; discriminate|]. split; [reflexivity|]. split; [reflexivity|].
  split; [apply kanji_spec; reflexivity|reflexivity].
Qed.

(** C103.  On hiragana [is_hiragana] makes one range test per character but ー, which it accepts without one; [is_kana] also
    makes none for ー, one for other hiragana and two for katakana.  The first character that does not belong costs one test, two in [is_kana]. *)
Theorem C103_exact :
  forall s,
    let dashes := length (filter (N.eqb (ch "ー")) s) in
    (Forall S_hiragana s -> (tests (is_hiragana_w s) + dashes)%nat = length s
       /\ forall x, ~ S_hiragana x -> (tests (is_hiragana_w (s ++ [x])) + dashes = length s + 1)%nat)
    /\ (Forall S_katakana s -> tests (is_katakana_w s) = length s
       /\ forall x, ~ S_katakana x -> tests (is_katakana_w (s ++ [x])) = (length s + 1)%nat)
    /\ (Forall S_kana s -> (tests (is_kana_w s) + 2 * dashes + length (filter (fun c => (ch "ぁ" <=? c)%N && (c <=? ch "ゖ")%N) s))%nat = (2 * length s)%nat
       /\ forall x, ~ S_kana x -> tests (is_kana_w (s ++ [x])) = (tests (is_kana_w s) + 2)%nat)
    /\ (Forall S_kanji s -> tests (is_kanji_w s) = length s
       /\ forall x, ~ S_kanji x -> tests (is_kanji_w (s ++ [x])) = (length s + 1)%nat).
Proof. exact C103_exact_proof. Qed.
Print Assumptions C103_exact.

Example C103_exact_case : Forall S_hiragana (u "らーめん") /\ tests (is_hiragana_w (u "らーめん")) = 3%nat /\ tests (is_hiragana_w (u "らーめんa")) = 4%nat
  /\ Forall S_kana (u "らーメン") /\ tests (is_kana_w (u "らーメン")) = 5%nat /\ tests (is_katakana_w (u "ラーメン")) = 4%nat.
Proof.
  split; [apply Forall_forall; intros c H; vm_compute in H; repeat destruct H as [<-|H]; try contradiction; apply hiragana_spec; reflexivity|]. split; [reflexivity|]. split; [reflexivity|].
  split; [apply Forall_forall; intros c H; vm_compute in H; repeat destruct H as [<-|H]; try contradiction; (left; apply hiragana_spec; reflexivity) || (right; apply katakana_spec; reflexivity)|]. split; reflexivity.
Qed.

(** C103.  With a whitelist the regex is run on the whole text once for every character outside the class if it
    matches the text (the answer of each run being the same), otherwise once if there is such a character. *)
Theorem C103_whitelist :
  forall s (r : regex),
    runs (is_japanese_with_whitelist_w s (Some r)) =
      (let k := length (filter (fun c => negb (is_char_japanese c)) s) in if r s then k else Nat.min 1 k)
    /\ runs (is_romaji_with_whitelist_w s (Some r)) =
      (let k := length (filter (fun c => negb (is_char_romaji c)) s) in if r s then k else Nat.min 1 k)
    /\ runs (is_japanese_with_whitelist_w s None) = 0%nat /\ runs (is_romaji_with_whitelist_w s None) = 0%nat.
Proof. exact C103_whitelist_proof. Qed.
Print Assumptions C103_whitelist.

Example C103_whitelist_case :
  runs (is_japanese_with_whitelist_w (u "あa1b") (Some (fun _ => true))) = 3%nat
  /\ runs (is_japanese_with_whitelist_w (u "あa1b") (Some (fun _ => false))) = 1%nat
  /\ runs (is_romaji_with_whitelist_w (u "abc") (Some (fun _ => true))) = 0%nat
  /\ value (is_japanese_with_whitelist_w (u "あa1b") (Some (fun _ => true))) = true.
Proof. vm_compute. auto. Qed.

(** C103.  Trimming makes at most 37 range tests per character and four, with [match_kanji] at most 17 per character of the
    text, 43 per character of the other and two. *)
Theorem C103_trim :
  forall s b,
    (tests (trim_okurigana_with_opt_w s b None) <= 37 * length s + 4)%nat
    /\ forall m, (tests (trim_okurigana_with_opt_w s b (Some m)) <= 17 * length s + 43 * length m + 2)%nat.
Proof. exact C103_trim_proof. Qed.
Print Assumptions C103_trim.

Example C103_trim_case :
  tests (trim_okurigana_with_opt_w (u "ｦｦｦｦｦｦｦｦｦあ") false None) = (37 * 10 - 10)%nat
  /\ tests (trim_okurigana_with_opt_w (u "￡￡￡ー") false (Some (u "ддд"))) = (17 * 3 + 7 + 43 * 3 - 2)%nat.
Proof. vm_compute. auto. Qed.

(** C103.  Before converting, [to_katakana] makes at most 8 n + 6 range tests and [to_hiragana] at most 8 n + 12, on kanji
    before a katakana letter exactly that many; none with [pass_romaji]. *)
Theorem C103_branches :
  forall o s,
    (tests (katakana_branch_w s o) <= if pass_romaji o then 0 else 8 * length s + 6)%nat
    /\ (tests (hiragana_branch_w s o) <= if pass_romaji o then 0 else 8 * length s + 12)%nat
    /\ (pass_romaji o = false -> forall n, let w := repeat (ch "漢") n ++ u "ア" in
          tests (katakana_branch_w w o) = (8 * length w + 6)%nat /\ tests (hiragana_branch_w w o) = (8 * length w + 12)%nat).
Proof. exact C103_branches_proof. Qed.
Print Assumptions C103_branches.

Example C103_branches_case :
  tests (katakana_branch_w (u "漢漢ア") default_options) = 30%nat /\ tests (hiragana_branch_w (u "漢漢ア") default_options) = 36%nat
  /\ tests (katakana_branch_w (u "aア") default_options) = 12%nat.
Proof. vm_compute. auto. Qed.
