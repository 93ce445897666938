(** * Proof of C103: the work done by the predicates, the tokenizer and trimming *)
From Verif Require Import Base Tac Std Constants Chars Strings Tokenize Convert KanaPure Predicates TokenSpec Work.

(** ** The same values *)
Lemma any_value {A} (p : A -> W bool) (q : A -> bool) : (forall a, value (p a) = q a) -> forall l, value (any_w p l) = existsb q l.
Proof.
  intros H l. induction l as [|a l IH]; [reflexivity|]. cbn [any_w existsb andthen value]. rewrite H. destruct (q a); [reflexivity|exact IH].
Qed.
Lemma all_value {A} (p : A -> W bool) (q : A -> bool) : (forall a, value (p a) = q a) -> forall l, value (all_w p l) = forallb q l.
Proof.
  intros H l. induction l as [|a l IH]; [reflexivity|]. cbn [all_w forallb andthen value]. rewrite H. destruct (q a); [exact IH|reflexivity].
Qed.
Lemma or_value x y : value (or_w x y) = value x || value y.
Proof. unfold or_w. cbn [andthen value]. destruct (value x); reflexivity. Qed.
Lemma and_value x y : value (and_w x y) = value x && value y.
Proof. unfold and_w. cbn [andthen value]. destruct (value x); reflexivity. Qed.
Lemma ranges_value c rs : value (in_ranges_w c rs) = in_ranges c rs.
Proof. apply any_value. reflexivity. Qed.
Lemma hiragana_value c : value (is_char_hiragana_w c) = is_char_hiragana c.
Proof. unfold is_char_hiragana_w, is_char_hiragana. destruct (is_char_long_dash c); reflexivity. Qed.
Lemma kana_value c : value (is_char_kana_w c) = is_char_kana c.
Proof. unfold is_char_kana_w. now rewrite or_value, hiragana_value. Qed.
Lemma nonempty_value p q s : (forall c, value (p c) = q c) -> value (nonempty_all_w p s) = if is_empty s then false else forallb q s.
Proof. intro H. unfold nonempty_all_w. destruct (is_empty s); [reflexivity|]. now apply all_value. Qed.
Lemma whitelist_value p q s r : (forall c, value (p c) = q c) ->
  value (whitelist_w p s r) = if is_empty s then false else forallb (fun c => if negb (q c) then match r with Some m => m s | None => q c end else q c) s.
Proof.
  intro H. unfold whitelist_w. apply nonempty_value. intro c. cbn [andthen value]. rewrite H. destruct (q c); [reflexivity|].
  cbn [negb]. destruct r; reflexivity.
Qed.
Lemma mixed_value s b : value (is_mixed_pass_kanji_w s b) = is_mixed_pass_kanji s b.
Proof.
  unfold is_mixed_pass_kanji_w, is_mixed_pass_kanji. cbn [andthen value]. rewrite !and_value, or_value.
  rewrite (any_value is_char_hiragana_w is_char_hiragana hiragana_value), (any_value is_char_katakana_w is_char_katakana) by reflexivity.
  rewrite (any_value is_char_romaji_w is_char_romaji) by (intro; apply ranges_value).
  destruct b; cbn [negb ret value]; [reflexivity|]. now rewrite (any_value is_char_kanji_w is_char_kanji).
Qed.
Lemma arms_value {A} g (a : A) l d : value (arms_w ((g, a) :: l) d) = if value g then a else value (arms_w l d).
Proof. cbn [arms_w andthen value]. destruct (value g); reflexivity. Qed.
Lemma type_value c b : value (get_type_w c b) = get_type c b.
Proof.
  unfold get_type_w, get_type. destruct b; rewrite !arms_value; rewrite ?or_value, ?hiragana_value;
    unfold is_char_english_punctuation_w, is_char_japanese_punctuation_w, is_char_japanese_w, is_char_romaji_w;
    rewrite !ranges_value; reflexivity.
Qed.
Lemma keys_value {A K} (key : A -> W K) l : value (keys_w key l) = map (fun a => (value (key a), a)) l.
Proof. induction l as [|a l IH]; [reflexivity|]. cbn [keys_w andthen ret value map]. now rewrite IH. Qed.
Lemma group_map {A K} (eqb : K -> K -> bool) (key : A -> K) (l : list A) :
  map (fun g => (fst g, map snd (snd g))) (group_by eqb fst (map (fun a => (key a, a)) l)) = group_by eqb key l.
Proof.
  induction l as [|a l IH]; [reflexivity|]. cbn [map group_by fst]. rewrite <- IH.
  destruct (group_by eqb fst (map (fun a0 => (key a0, a0)) l)) as [|[k g] gs]; [reflexivity|]. cbn [map fst snd].
  destruct (eqb (key a) k); reflexivity.
Qed.
Lemma detailed_value s b : value (tokenize_detailed_w s b) = tokenize_detailed s b.
Proof.
  unfold tokenize_detailed_w, tokenize_detailed. cbn [andthen ret value]. rewrite keys_value.
  rewrite (map_ext _ (fun c => (get_type c b, c))) by (intro c; now rewrite type_value). apply group_map.
Qed.
Lemma tokenize_value s b : value (tokenize_with_opt_w s b) = tokenize_with_opt s b.
Proof.
  unfold tokenize_with_opt_w, tokenize_with_opt. cbn [andthen ret value]. rewrite keys_value.
  rewrite (map_ext _ (fun c => (get_type c b, c))) by (intro c; now rewrite type_value).
  rewrite <- (group_map token_type_eqb (fun c => get_type c b) s), map_map. apply map_ext. reflexivity.
Qed.
Lemma lead_value s b : value (without_kana_w b s (nth_error s 0)) = is_leading_without_initial_kana s b.
Proof.
  unfold without_kana_w, is_leading_without_initial_kana. destruct s as [|c s]; [reflexivity|]. cbn [is_empty nth_error].
  destruct b; [|reflexivity]. cbn [andthen ret value unwrap bind]. now rewrite kana_value.
Qed.
Lemma trail_value s b : value (without_kana_w (negb b) s (nth_error (rev s) 0)) = is_trailing_without_final_kana s b.
Proof.
  unfold without_kana_w, is_trailing_without_final_kana. destruct (is_empty s); [reflexivity|]. destruct (negb b); [|reflexivity].
  destruct (nth_error (rev s) 0); [|reflexivity]. cbn [andthen ret value unwrap bind]. now rewrite kana_value.
Qed.
Lemma matcher_value s m : value (is_invalid_matcher_w s m) = is_invalid_matcher s m.
Proof. unfold is_invalid_matcher_w, is_invalid_matcher. destruct m; [now apply all_value|apply nonempty_value, kana_value]. Qed.
Lemma trim_value s b m : value (trim_okurigana_with_opt_w s b m) = trim_okurigana_with_opt s b m.
Proof.
  unfold trim_okurigana_with_opt_w, trim_okurigana_with_opt, is_japanese_w. cbn [andthen value].
  rewrite (nonempty_value _ is_char_japanese) by (intro; apply ranges_value). fold (is_japanese s).
  destruct (is_japanese s); [|reflexivity]. cbn [negb andthen value]. rewrite lead_value.
  destruct (is_leading_without_initial_kana s b) as [[]| |]; try reflexivity. cbn [andthen value bind]. rewrite trail_value.
  destruct (is_trailing_without_final_kana s b) as [[]| |]; try reflexivity. cbn [andthen value bind]. rewrite matcher_value.
  destruct (is_invalid_matcher s m); [reflexivity|]. cbn [andthen value ret]. rewrite tokenize_value. destruct m; reflexivity.
Qed.
Lemma kata_branch_value s o : value (katakana_branch_w s o) = negb (pass_romaji o) && (is_romaji s || is_mixed s).
Proof.
  unfold katakana_branch_w. destruct (pass_romaji o); [reflexivity|]. cbn [negb andb]. rewrite or_value. unfold is_romaji_w, is_mixed_w.
  rewrite mixed_value. rewrite (nonempty_value _ is_char_romaji) by (intro; apply ranges_value). reflexivity.
Qed.
Lemma hira_branch_value s o : value (hiragana_branch_w s o) = negb (pass_romaji o) &&
  (is_mixed s || (is_romaji s || match option_map is_char_english_punctuation (nth_error s 0) with Some b => b | None => false end)).
Proof.
  unfold hiragana_branch_w. destruct (pass_romaji o); [reflexivity|]. cbn [negb andb]. rewrite !or_value. unfold is_romaji_w, is_mixed_w.
  rewrite mixed_value. rewrite (nonempty_value _ is_char_romaji) by (intro; apply ranges_value).
  destruct (nth_error s 0) as [c|]; cbn [option_map ret value]; [|reflexivity].
  unfold is_char_english_punctuation_w. now rewrite ranges_value.
Qed.

(** ** Tests per character *)
Lemma or_tests x y : tests (or_w x y) = (tests x + if value x then 0 else tests y)%nat.
Proof. unfold or_w. cbn [andthen tests]. destruct (value x); reflexivity. Qed.
Lemma and_tests x y : tests (and_w x y) = (tests x + if value x then tests y else 0)%nat.
Proof. unfold and_w. cbn [andthen tests]. destruct (value x); reflexivity. Qed.
Lemma arms_tests {A} g (a : A) l d : tests (arms_w ((g, a) :: l) d) = (tests g + if value g then 0 else tests (arms_w l d))%nat.
Proof. cbn [arms_w andthen tests]. destruct (value g); reflexivity. Qed.
Lemma ranges_tests c rs :
  (tests (in_ranges_w c rs) <= length rs)%nat /\ (in_ranges c rs = false -> tests (in_ranges_w c rs) = length rs)
  /\ (rs <> [] -> (1 <= tests (in_ranges_w c rs))%nat) /\ runs (in_ranges_w c rs) = 0%nat.
Proof.
  unfold in_ranges_w, in_ranges. induction rs as [|r rs (I1 & I2 & I3 & I4)]; [now repeat split|].
  cbn [any_w existsb andthen tests runs is_char_in_range_w value length].
  destruct (is_char_in_range c (fst r) (snd r)); cbn [ret tests runs orb]; [repeat split; (lia || discriminate)|].
  split; [lia|]. split; [intro H; rewrite (I2 H); lia|]. split; [lia|exact I4].
Qed.

Lemma six c : tests (is_char_romaji_w c) = 6%nat <-> (is_char_romaji c = false \/ c = 0x16A \/ c = 0x16B).
Proof.
  unfold is_char_romaji_w, is_char_romaji, in_ranges_w, in_ranges, ROMAJI_RANGES, HEPBURN_MACRON_RANGES, MODERN_ENGLISH.
  cbn [app any_w existsb fst snd]. unfold is_char_in_range_w, is_char_in_range. cbn [andthen value tests].
  destruct ((0 <=? c) && (c <=? 127)) eqn:A1; [cbn; split; [discriminate|lia]|].
  destruct ((0x100 <=? c) && (c <=? 0x101)) eqn:A2; [cbn; split; [discriminate|lia]|].
  destruct ((0x112 <=? c) && (c <=? 0x113)) eqn:A3; [cbn; split; [discriminate|lia]|].
  destruct ((0x12a <=? c) && (c <=? 0x12b)) eqn:A4; [cbn; split; [discriminate|lia]|].
  destruct ((0x14c <=? c) && (c <=? 0x14d)) eqn:A5; [cbn; split; [discriminate|lia]|].
  destruct ((0x16a <=? c) && (c <=? 0x16b)) eqn:A6; cbn; split; (reflexivity || lia || auto).
Qed.
(** what each guard of the tokenizer costs *)
Definition dear (c : N) : Prop := ~ S_japanese c /\ ~ S_en_punct c /\ (S_romaji c -> c = 0x16A \/ c = 0x16B).
Lemma dear_b c : dear c <-> is_char_japanese c = false /\ is_char_english_punctuation c = false /\ tests (is_char_romaji_w c) = 6%nat.
Proof.
  unfold dear. rewrite six, <- japanese_spec, <- en_punct_spec, <- romaji_spec.
  destruct (is_char_japanese c), (is_char_english_punctuation c), (is_char_romaji c); intuition (try discriminate).
Qed.
Lemma inside c :
  (is_char_japanese_number c = true -> is_char_japanese c = true) /\ (is_char_japanese_punctuation c = true -> is_char_japanese c = true)
  /\ (is_char_kanji c = true -> is_char_japanese c = true) /\ (is_char_hiragana c = true -> is_char_japanese c = true)
  /\ (is_char_katakana c = true -> is_char_japanese c = true) /\ (is_char_latin_number c = true -> tests (is_char_romaji_w c) <> 6%nat).
Proof.
  rewrite six, japanese_spec, ja_number_spec, ja_punct_spec, kanji_spec, hiragana_spec, katakana_spec.
  destruct (is_char_romaji c) eqn:R.
  - split; [|split; [|split; [|split; [|split]]]]; try (unf; lia).
  - assert (~ S_romaji c) by (rewrite <- romaji_spec; congruence). assert (127 < c) by (unfold S_romaji in *; lia).
    split; [|split; [|split; [|split; [|split]]]]; try (clear R; unf; lia).
    all: intro L; exfalso; clear R H; unf; lia.
Qed.
Ltac guards c :=
  rewrite !arms_tests; rewrite ?or_tests; rewrite ?or_value; rewrite ?hiragana_value;
  unfold is_char_english_punctuation_w, is_char_japanese_punctuation_w, is_char_japanese_w;
  rewrite !ranges_value; fold (is_char_romaji_w c);
  change (value (is_char_japanese_number_w c)) with (is_char_japanese_number c);
  change (value (is_char_latin_number_w c)) with (is_char_latin_number c);
  change (value (is_char_kanji_w c)) with (is_char_kanji c); change (value (is_char_katakana_w c)) with (is_char_katakana c);
  change (value (is_char_romaji_w c)) with (value (in_ranges_w c ROMAJI_RANGES)); rewrite ?ranges_value;
  fold (is_char_japanese c); fold (is_char_japanese_punctuation c); fold (is_char_english_punctuation c); fold (is_char_romaji c);
  change (tests (is_char_japanese_number_w c)) with 1%nat; change (tests (is_char_latin_number_w c)) with 1%nat;
  change (tests (is_char_kanji_w c)) with 1%nat; change (tests (is_char_katakana_w c)) with 1%nat.
Lemma hira_tests c : (tests (is_char_hiragana_w c) <= 1)%nat /\ (is_char_hiragana c = false -> tests (is_char_hiragana_w c) = 1%nat).
Proof. unfold is_char_hiragana_w, is_char_hiragana. destruct (is_char_long_dash c); cbn; split; (lia || discriminate || reflexivity). Qed.
Ltac tidy := repeat match goal with
  | H : ?x = ?x -> _ |- _ => specialize (H eq_refl)
  | H : true = false -> _ |- _ => clear H | H : false = true -> _ |- _ => clear H
  | H : true = false |- _ => discriminate H | H : false = true |- _ => discriminate H end.
Ltac last_bit := cbn [andb orb]; split; [lia|split; split; [intro; try lia; repeat split; (reflexivity || lia)|intros (Q1 & Q2 & Q3); (discriminate || lia)|intro; exfalso; lia|intro; exfalso; tauto]].
Lemma type_tests c b :
  (tests (get_type_w c b) <= if b then 39 else 42)%nat
  /\ (tests (get_type_w c b) = (if b then 39 else 42)%nat <-> dear c)
  /\ (tests (get_type_w c b) = 0%nat <-> c = 0x20 \/ c = 0x3000).
Proof.
  rewrite dear_b.
  destruct (ranges_tests c EN_PUNCTUATION_RANGES) as (e1 & e2 & e3 & _). destruct (ranges_tests c JA_PUNCTUATION_RANGES) as (p1 & p2 & p3 & _).
  destruct (ranges_tests c JAPANESE_RANGES) as (j1 & j2 & j3 & _). destruct (ranges_tests c ROMAJI_RANGES) as (r1 & r2 & r3 & _).
  destruct (hira_tests c) as (h1 & h2). destruct (inside c) as (i1 & i2 & i3 & i4 & i5 & i6).
  fold (is_char_japanese c) in *. fold (is_char_japanese_punctuation c) in *. fold (is_char_english_punctuation c) in *. fold (is_char_romaji c) in *.
  fold (is_char_romaji_w c) in *.
  assert (Z1 : c =? ch " " = true <-> c = 0x20) by apply N.eqb_eq. assert (Z2 : c =? 0x3000 = true <-> c = 0x3000) by apply N.eqb_eq.
  assert (D1 : c = 0x20 -> is_char_english_punctuation c = true) by (intros ->; reflexivity).
  assert (D2 : c = 0x3000 -> is_char_japanese c = true) by (intros ->; reflexivity).
  change (length EN_PUNCTUATION_RANGES) with 6%nat in *. change (length JA_PUNCTUATION_RANGES) with 8%nat in *.
  change (length JAPANESE_RANGES) with 17%nat in *. change (length ROMAJI_RANGES) with 6%nat in *.
  specialize (e3 ltac:(discriminate)). specialize (p3 ltac:(discriminate)). specialize (j3 ltac:(discriminate)). specialize (r3 ltac:(discriminate)).
  assert (Z1' : c = 32 \/ c = 0x3000 -> ((c =? ch " ") || (c =? 0x3000)) = true) by (intros [->| ->]; reflexivity).
  unfold get_type_w. destruct b; guards c; cbn [ret value tests]; change (tests (arms_w [] Other)) with 0%nat.
  all: generalize dependent (tests (is_char_romaji_w c)); generalize dependent (tests (in_ranges_w c JAPANESE_RANGES));
    generalize dependent (tests (in_ranges_w c JA_PUNCTUATION_RANGES)); generalize dependent (tests (in_ranges_w c EN_PUNCTUATION_RANGES));
    generalize dependent (tests (is_char_hiragana_w c)); intros.
  all: assert (NZ : (c =? ch " ") || (c =? 0x3000) = false -> ~ (c = 32 \/ c = 0x3000)) by (intros F G; rewrite (Z1' G) in F; discriminate F); clear Z1'.
  all: destruct (c =? ch " ") eqn:Y1; [assert (c = 32) by (now apply Z1); rewrite D1 by assumption; cbn [orb Nat.add]; split; [apply Nat.le_0_l|split; split; [intro; discriminate|intros (Q1 & Q2 & Q3); discriminate|intro; apply N.eqb_eq in Y1; now left|reflexivity]]|].
  all: destruct (c =? 0x3000) eqn:Y2; [assert (c = 0x3000) by (now apply Z2); rewrite D2 by assumption; cbn [orb Nat.add]; split; [apply Nat.le_0_l|split; split; [intro; discriminate|intros (Q1 & Q2 & Q3); discriminate|intro; now right|reflexivity]]|].
  all: specialize (NZ eq_refl); clear Z1 Z2 D1 D2 Y1 Y2.
  all: set (jn := is_char_japanese_number c) in *; set (ln := is_char_latin_number c) in *; set (e := is_char_english_punctuation c) in *;
    set (jp := is_char_japanese_punctuation c) in *; set (k := is_char_kanji c) in *; set (h := is_char_hiragana c) in *;
    set (kt := is_char_katakana c) in *; set (j := is_char_japanese c) in *; set (r := is_char_romaji c) in *; clearbody jn ln e jp k h kt j r.
  - destruct jn; [tidy; subst; last_bit|]. destruct ln; [tidy; last_bit|]. destruct e; [tidy; last_bit|].
    destruct jp; [tidy; subst; last_bit|]. destruct j; [tidy; last_bit|]. tidy. destruct r; tidy; last_bit.
  - destruct jn; [tidy; subst; last_bit|]. destruct ln; [tidy; last_bit|]. destruct e; [tidy; last_bit|].
    destruct jp; [tidy; subst; last_bit|]. destruct k; [tidy; subst; last_bit|]. destruct h; [tidy; subst; last_bit|]. destruct kt; [tidy; subst; last_bit|].
    destruct j; [tidy; last_bit|]. tidy. destruct r; tidy; last_bit.
Qed.
