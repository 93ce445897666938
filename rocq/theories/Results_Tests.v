(** * Proofs of the theorems of Props_Tests.v *)
From Verif Require Import Tac Base Std Constants Chars Strings Tokenize Convert Predicates TokenSpec Work WorkProofs WorkTexts.



Lemma C103_same_proof :
  (forall s, value (is_hiragana_w s) = is_hiragana s /\ value (is_katakana_w s) = is_katakana s /\ value (is_kana_w s) = is_kana s
     /\ value (is_kanji_w s) = is_kanji s /\ value (contains_kanji_w s) = contains_kanji s /\ value (is_japanese_w s) = is_japanese s
     /\ value (is_romaji_w s) = is_romaji s /\ value (is_mixed_w s) = is_mixed s)
  /\ (forall s b, value (is_mixed_pass_kanji_w s b) = is_mixed_pass_kanji s b)
  /\ (forall s r, value (is_japanese_with_whitelist_w s r) = is_japanese_with_whitelist s r
       /\ value (is_romaji_with_whitelist_w s r) = is_romaji_with_whitelist s r)
  /\ (forall s b, value (tokenize_detailed_w s b) = tokenize_detailed s b /\ value (tokenize_with_opt_w s b) = tokenize_with_opt s b)
  /\ (forall s b m, value (trim_okurigana_with_opt_w s b m) = trim_okurigana_with_opt s b m)
  /\ (forall s o, value (katakana_branch_w s o) = negb (pass_romaji o) && (is_romaji s || is_mixed s)
       /\ value (hiragana_branch_w s o) = negb (pass_romaji o)
            && (is_mixed s || is_romaji s || match s with [] => false | c :: _ => is_char_english_punctuation c end)).
Proof.
  split; [intro s|split; [exact mixed_value|split; [intros s r|split; [intros s b|split; [exact trim_value|intros s o]]]]].
  - unfold is_hiragana_w, is_katakana_w, is_kana_w, is_kanji_w, is_japanese_w, is_romaji_w.
    rewrite (nonempty_value _ is_char_hiragana) by exact hiragana_value. rewrite (nonempty_value _ is_char_katakana) by reflexivity.
    rewrite (nonempty_value _ is_char_kana) by exact kana_value. rewrite (nonempty_value _ is_char_kanji) by reflexivity.
    rewrite (nonempty_value _ is_char_japanese) by (intro; apply ranges_value). rewrite (nonempty_value _ is_char_romaji) by (intro; apply ranges_value).
    split; [reflexivity|]. split; [reflexivity|]. split; [reflexivity|]. split; [reflexivity|].
    split; [unfold contains_kanji_w, contains_kanji; destruct (is_empty s); [reflexivity|now apply any_value]|].
    split; [reflexivity|]. split; [reflexivity|]. apply mixed_value.
  - split; apply whitelist_value; intro; apply ranges_value.
  - split; [apply detailed_value|apply tokenize_value].
  - split; [apply kata_branch_value|]. rewrite hira_branch_value. destruct s; cbn [nth_error option_map]; now rewrite orb_assoc.
Qed.

Lemma C103_tokenizer_proof :
  forall s (compact : bool),
    let most := (if compact then 39 else 42)%nat in
    let t := tests (tokenize_detailed_w s compact) in
    tests (tokenize_with_opt_w s compact) = t
    /\ (t <= most * length s)%nat
    /\ (t = (most * length s)%nat <-> Forall (fun c => ~ S_japanese c /\ ~ S_en_punct c /\ (S_romaji c -> c = ch "Ū" \/ c = ch "ū")) s)
    /\ (t = 0%nat <-> Forall (fun c => c = 0x20 \/ c = 0x3000) s)
    /\ (forall s1 s2, s = s1 ++ s2 -> t = (tests (tokenize_detailed_w s1 compact) + tests (tokenize_detailed_w s2 compact))%nat).
Proof.
  intros s b. cbv zeta. destruct (tokenizer s b) as (A & B & C & D & _).
  split; [exact A|]. split; [exact B|]. split; [exact C|]. split; [exact D|]. intros s1 s2 ->. apply tokenizer_app.
Qed.

Lemma C103_kinds_proof :
  forall s,
    (Forall (fun c => ch "A" <= c <= ch "Z" \/ ch "a" <= c <= ch "z") s ->
       tests (tokenize_detailed_w s false) = (37 * length s)%nat /\ tests (tokenize_detailed_w s true) = (34 * length s)%nat)
    /\ (Forall (fun c => 0x4E00 <= c <= 0x9FAF) s ->
       tests (tokenize_detailed_w s false) = (17 * length s)%nat /\ tests (tokenize_detailed_w s true) = (20 * length s)%nat)
    /\ (Forall (fun c => ch "ぁ" <= c <= ch "ゖ") s ->
       tests (tokenize_detailed_w s false) = (18 * length s)%nat /\ tests (tokenize_detailed_w s true) = (22 * length s)%nat)
    /\ (Forall (fun c => ch "ァ" <= c <= ch "ヺ") s ->
       tests (tokenize_detailed_w s false) = (19 * length s)%nat /\ tests (tokenize_detailed_w s true) = (23 * length s)%nat).
Proof.
  intro s. split; [|split; [|split]]; intro F.
  - split; (eapply uniform; [|exact F]); intros c Hc; now apply letter_cost.
  - split; (eapply uniform; [|exact F]); intros c Hc; now apply kanji_cost.
  - split; (eapply uniform; [|exact F]); intros c Hc; now apply hiragana_cost.
  - split; (eapply uniform; [|exact F]); intros c Hc; now apply katakana_cost.
Qed.

Lemma C103_predicates_proof :
  forall s n, n = length s ->
    (tests (is_hiragana_w s) <= n)%nat /\ (tests (is_katakana_w s) <= n)%nat /\ (tests (is_kana_w s) <= 2 * n)%nat
    /\ (tests (is_kanji_w s) <= n)%nat /\ (tests (contains_kanji_w s) <= n)%nat /\ (tests (is_japanese_w s) <= 17 * n)%nat
    /\ (tests (is_romaji_w s) <= 6 * n)%nat /\ (tests (is_mixed_w s) <= 8 * n)%nat /\ (tests (is_mixed_pass_kanji_w s false) <= 9 * n)%nat
    /\ tests (is_hiragana_w (repeat (ch "あ") n)) = n /\ tests (is_katakana_w (repeat (ch "ア") n)) = n
    /\ tests (is_kana_w (repeat (ch "ア") n)) = (2 * n)%nat /\ tests (is_kanji_w (repeat (ch "漢") n)) = n
    /\ tests (contains_kanji_w (repeat (ch "か") n)) = n /\ tests (is_japanese_w (repeat (ch "￡") n)) = (17 * n)%nat
    /\ tests (is_romaji_w (repeat (ch "ū") n)) = (6 * n)%nat
    /\ tests (is_mixed_w (repeat (ch "漢") n ++ u "ア")) = (8 * (n + 1))%nat
    /\ tests (is_mixed_pass_kanji_w (repeat (ch "々") n ++ u "ア") false) = (9 * (n + 1))%nat.
Proof.
  intros s n Hn.
  assert (U : forall (p : N -> W bool) c k, value (p c) = true -> tests (p c) = k -> tests (nonempty_all_w p (repeat c n)) = (k * n)%nat).
  { intros p c k V T. unfold nonempty_all_w. clear Hn. destruct n as [|m]; [cbn; lia|]. cbn [repeat is_empty]. change (c :: repeat c m) with (repeat c (S m)).
    rewrite all_exact.
    - rewrite (sum_const _ k); [now rewrite repeat_length|]. apply Forall_forall. intros x Hx. apply repeat_spec in Hx. now subst.
    - apply forallb_forall. intros x Hx. apply repeat_spec in Hx. now subst. }
  pose proof (any_tests is_char_romaji_w 6 s romaji_tests) as AR.
  pose proof (mixed_tests s true) as M1. pose proof (mixed_tests s false) as M2. cbv iota in M1, M2.
  pose proof (nonempty_tests is_char_hiragana_w 1 s (fun c => proj1 (hira_tests c))) as B1.
  pose proof (nonempty_tests is_char_katakana_w 1 s (fun c => le_n 1)) as B2.
  pose proof (nonempty_tests is_char_kanji_w 1 s (fun c => le_n 1)) as B3.
  pose proof (any_tests is_char_kanji_w 1 s (fun c => le_n 1)) as B4.
  split; [unfold is_hiragana_w; lia|]. split; [unfold is_katakana_w; lia|]. split; [rewrite Hn; apply nonempty_tests; exact kana_tests|].
  split; [unfold is_kanji_w; lia|]. split; [unfold contains_kanji_w; destruct (is_empty s); [cbn; lia|lia]|].
  split; [rewrite Hn; apply nonempty_tests; intro; apply ranges_tests|]. split; [rewrite Hn; apply nonempty_tests; exact romaji_tests|].
  split; [unfold is_mixed_w; lia|]. split; [lia|].
  split; [unfold is_hiragana_w; rewrite (U _ _ 1%nat) by reflexivity; apply Nat.mul_1_l|]. split; [unfold is_katakana_w; rewrite (U _ _ 1%nat) by reflexivity; apply Nat.mul_1_l|].
  split; [apply U; reflexivity|]. split; [unfold is_kanji_w; rewrite (U _ _ 1%nat) by reflexivity; apply Nat.mul_1_l|].
  split.
  { unfold contains_kanji_w. clear Hn. destruct n as [|m]; [reflexivity|]. change (is_empty (repeat (ch "か") (S m))) with false. cbv iota.
    rewrite <- (app_nil_r (repeat _ _)), (repeat_any is_char_kanji_w _ _ _ 1) by reflexivity. cbn [any_w ret tests]. lia. }
  split; [apply U; reflexivity|]. split; [apply U; reflexivity|].
  split; [rewrite Nat.add_1_r; exact (proj1 (worst_mixed n))|].
  unfold is_mixed_pass_kanji_w. cbn [negb andthen tests]. rewrite !and_tests, or_tests, and_value, or_value. cbn [ret tests value].
  rewrite (repeat_value is_char_hiragana_w), (repeat_value is_char_katakana_w), (repeat_value is_char_romaji_w) by reflexivity.
  rewrite (repeat_any is_char_hiragana_w _ _ _ 1), (repeat_any is_char_katakana_w _ _ _ 1), (repeat_any is_char_romaji_w _ _ _ 6), (repeat_any is_char_kanji_w _ _ _ 1) by reflexivity.
  cbn - [Nat.mul Nat.add]. lia.
Qed.

Lemma C103_stop_proof :
  forall s x t,
    (~ S_hiragana x -> is_hiragana_w (s ++ x :: t) = is_hiragana_w (s ++ [x]))
    /\ (~ S_katakana x -> is_katakana_w (s ++ x :: t) = is_katakana_w (s ++ [x]))
    /\ (~ S_kana x -> is_kana_w (s ++ x :: t) = is_kana_w (s ++ [x]))
    /\ (~ S_kanji x -> is_kanji_w (s ++ x :: t) = is_kanji_w (s ++ [x]))
    /\ (~ S_japanese x -> is_japanese_w (s ++ x :: t) = is_japanese_w (s ++ [x]))
    /\ (~ S_romaji x -> is_romaji_w (s ++ x :: t) = is_romaji_w (s ++ [x]))
    /\ (S_kanji x -> contains_kanji_w (s ++ x :: t) = contains_kanji_w (s ++ [x])).
Proof.
  assert (B : forall (b : bool) P, (b = true <-> P) -> ~ P -> b = false) by (intros [] P H Q; [exfalso; apply Q, H; reflexivity|reflexivity]).
  intros s x t. split; [|split; [|split; [|split; [|split; [|split]]]]]; intro H.
  - apply nonempty_stop. rewrite hiragana_value. apply (B _ _ (hiragana_spec x) H).
  - apply nonempty_stop. apply (B _ _ (katakana_spec x) H).
  - apply nonempty_stop. rewrite kana_value. apply (B _ (S_kana x)); [|exact H]. unfold is_char_kana, S_kana. rewrite orb_true_iff, hiragana_spec, katakana_spec. tauto.
  - apply nonempty_stop. apply (B _ _ (kanji_spec x) H).
  - apply nonempty_stop. unfold is_char_japanese_w. rewrite ranges_value. apply (B _ _ (japanese_spec x) H).
  - apply nonempty_stop. unfold is_char_romaji_w. rewrite ranges_value. apply (B _ _ (romaji_spec x) H).
  - unfold contains_kanji_w. replace (is_empty (s ++ x :: t)) with false by (destruct s; reflexivity).
    replace (is_empty (s ++ [x])) with false by (destruct s; reflexivity). apply any_stop. apply kanji_spec, H.
Qed.

Lemma C103_exact_proof :
  forall s,
    let dashes := length (filter (N.eqb (ch "ー")) s) in
    (Forall S_hiragana s -> (tests (is_hiragana_w s) + dashes)%nat = length s
       /\ forall x, ~ S_hiragana x -> (tests (is_hiragana_w (s ++ [x])) + dashes = length s + 1)%nat)
    /\ (Forall S_katakana s -> tests (is_katakana_w s) = length s
       /\ forall x, ~ S_katakana x -> tests (is_katakana_w (s ++ [x])) = (length s + 1)%nat)
    /\ (Forall S_kana s -> (tests (is_kana_w s) + 2 * dashes + length (filter (fun c => (ch "ぁ" <=? c)%N && (c <=? ch "ゖ")%N) s))%nat = (2 * length s)%nat
       /\ forall x, ~ S_kana x -> tests (is_kana_w (s ++ [x])) = (tests (is_kana_w s) + 2)%nat)
    /\ (Forall S_kanji s -> tests (is_kanji_w s) = length s
       /\ forall x, ~ S_kanji x -> tests (is_kanji_w (s ++ [x])) = (length s + 1)%nat).
Proof.
  intros s dashes. exact (exact_tests s).
Qed.

Lemma C103_whitelist_proof :
  forall s (r : regex),
    runs (is_japanese_with_whitelist_w s (Some r)) =
      (let k := length (filter (fun c => negb (is_char_japanese c)) s) in if r s then k else Nat.min 1 k)
    /\ runs (is_romaji_with_whitelist_w s (Some r)) =
      (let k := length (filter (fun c => negb (is_char_romaji c)) s) in if r s then k else Nat.min 1 k)
    /\ runs (is_japanese_with_whitelist_w s None) = 0%nat /\ runs (is_romaji_with_whitelist_w s None) = 0%nat.
Proof.
  intros s r. cbv zeta. split; [|split; [|split]].
  - apply whitelist_runs; intro; [apply ranges_value|apply ranges_runs].
  - apply whitelist_runs; intro; [apply ranges_value|apply ranges_runs].
  - apply whitelist_none; intro; apply ranges_runs.
  - apply whitelist_none; intro; apply ranges_runs.
Qed.

Lemma C103_trim_proof :
  forall s b,
    (tests (trim_okurigana_with_opt_w s b None) <= 37 * length s + 4)%nat
    /\ forall m, (tests (trim_okurigana_with_opt_w s b (Some m)) <= 17 * length s + 43 * length m + 2)%nat.
Proof.
  intros s b. split; [exact (trim_tests s b None)|]. intro m. exact (trim_tests s b (Some m)).
Qed.

Lemma C103_branches_proof :
  forall o s,
    (tests (katakana_branch_w s o) <= if pass_romaji o then 0 else 8 * length s + 6)%nat
    /\ (tests (hiragana_branch_w s o) <= if pass_romaji o then 0 else 8 * length s + 12)%nat
    /\ (pass_romaji o = false -> forall n, let w := repeat (ch "漢") n ++ u "ア" in
          tests (katakana_branch_w w o) = (8 * length w + 6)%nat /\ tests (hiragana_branch_w w o) = (8 * length w + 12)%nat).
Proof.
  intros o s. split; [|split].
  - destruct (pass_romaji o) eqn:P; [unfold katakana_branch_w; rewrite P; apply le_n|apply kata_tests].
  - destruct (pass_romaji o) eqn:P; [unfold hiragana_branch_w; rewrite P; apply le_n|apply hira_branch_tests].
  - intros P n w. destruct (worst_branches n o P) as (L & A & B). fold (worst n) in w. subst w. rewrite L. now split.
Qed.
