(** * Specification and proofs for C35-C39: character and string predicates *)
From Coq Require Import Permutation.
From Verif Require Import Tac Base Constants Chars Strings.

(** ** Specification: code point classes as sets *)
Definition between (a b c : N) : Prop := a <= c <= b.
Definition S_hiragana (c : N) : Prop := between 0x3041 0x3096 c \/ c = 0x30FC.
Definition S_katakana (c : N) : Prop := between 0x30A1 0x30FC c.
Definition S_kanji (c : N) : Prop := between 0x4E00 0x9FAF c.
Definition S_romaji (c : N) : Prop :=
  c <= 0x7F \/ In c (u "ĀāĒēĪīŌōŪū").
Definition S_ja_number (c : N) : Prop := between 0xFF10 0xFF19 c.
Definition S_ja_punct (c : N) : Prop :=
  between 0x3000 0x303F c \/ c = 0x30FB \/ c = 0x30FC \/ between 0xFF61 0xFF65 c
  \/ between 0xFF01 0xFF0F c \/ between 0xFF1A 0xFF1F c \/ between 0xFF3B 0xFF3F c
  \/ between 0xFF5B 0xFF60 c \/ between 0xFFE0 0xFFEE c.
Definition S_en_punct (c : N) : Prop :=
  In c (u " !""#$%&'()*+,-./:;<=>?[\]^_`{|}~‘’“”").
Definition S_japanese (c : N) : Prop :=
  between 0xFF21 0xFF3A c \/ between 0xFF41 0xFF5A c \/ S_ja_number c
  \/ between 0x4E00 0x9FFF c \/ between 0x3400 0x4DBF c
  \/ between 0x3040 0x309F c \/ between 0x30A0 0x30FF c \/ between 0xFF66 0xFF9F c
  \/ S_ja_punct c.

Ltac unf1 := unfold is_char_hiragana, is_char_katakana, is_char_kana, is_char_kanji, is_char_japanese,
  is_char_japanese_number, is_char_japanese_punctuation, is_char_english_punctuation,
  is_char_punctuation, is_char_latin_number, is_char_romaji, is_char_upper_case,
  is_char_long_dash, is_char_slash_dot, is_char_in_range, in_ranges,
  JAPANESE_RANGES, KANA_RANGES, JA_PUNCTUATION_RANGES, EN_PUNCTUATION_RANGES, ROMAJI_RANGES,
  HEPBURN_MACRON_RANGES, SMART_QUOTE_RANGES, MODERN_ENGLISH, LATIN_NUMBERS, RARE_CJK, COMMON_CJK,
  HANKAKU_KATAKANA, KANA_PUNCTUATION, ZENKAKU_SYMBOLS_CURRENCY, ZENKAKU_LOWERCASE,
  ZENKAKU_UPPERCASE, ZENKAKU_PUNCTUATION_1, ZENKAKU_PUNCTUATION_2, ZENKAKU_PUNCTUATION_3,
  ZENKAKU_PUNCTUATION_4, ZENKAKU_NUMBERS, KATAKANA_PUNCTUATION, CJK_SYMBOLS_PUNCTUATION,
  HIRAGANA_CHARS, KATAKANA_CHARS, LOWERCASE_ZENKAKU_START, LOWERCASE_ZENKAKU_END,
  UPPERCASE_ZENKAKU_START, UPPERCASE_ZENKAKU_END, UPPERCASE_START, UPPERCASE_END,
  HIRAGANA_START, HIRAGANA_END, KATAKANA_START, KATAKANA_END, PROLONGED_SOUND_MARK,
  KANA_SLASH_DOT, KANJI_START, KANJI_END,
  S_hiragana, S_katakana, S_kanji, S_romaji, S_ja_number, S_ja_punct, S_en_punct, S_japanese,
  between in *; cbn [existsb fst snd app] in *; unfold is_char_in_range in *.

Ltac unf := do 2 unf1.
Ltac blia := rewrite ?orb_false_r, ?orb_true_iff, ?andb_true_iff, ?N.leb_le, ?N.eqb_eq; split; intro; lia.

Lemma hiragana_spec c : is_char_hiragana c = true <-> S_hiragana c.
Proof. unf. ifs; lia. Qed.
Lemma katakana_spec c : is_char_katakana c = true <-> S_katakana c.
Proof. unf. lia. Qed.
Lemma kanji_spec c : is_char_kanji c = true <-> S_kanji c.
Proof. unf. lia. Qed.
Lemma romaji_spec c : is_char_romaji c = true <-> S_romaji c.
Proof.
  unf. let x := eval vm_compute in (u "ĀāĒēĪīŌōŪū") in change (u "ĀāĒēĪīŌōŪū") with x.
  cbn [In]. blia.
Qed.
Lemma ja_number_spec c : is_char_japanese_number c = true <-> S_ja_number c.
Proof. unf. blia. Qed.
Lemma ja_punct_spec c : is_char_japanese_punctuation c = true <-> S_ja_punct c.
Proof. unf. blia. Qed.
Lemma en_punct_spec c : is_char_english_punctuation c = true <-> S_en_punct c.
Proof.
  unf. match goal with |- context [In c ?l] => let x := eval vm_compute in l in change l with x end.
  cbn [In]. blia.
Qed.
Lemma japanese_spec c : is_char_japanese c = true <-> S_japanese c.
Proof. unf. blia. Qed.

(** ** C35 *)
Definition C35_statement : Prop := forall c : N,
  (* each predicate is the documented set of code points *)
  (is_char_hiragana c = true <-> S_hiragana c) /\
  (is_char_katakana c = true <-> S_katakana c) /\
  (is_char_kanji c = true <-> S_kanji c) /\
  (is_char_romaji c = true <-> S_romaji c) /\
  (is_char_japanese_number c = true <-> S_ja_number c) /\
  (is_char_japanese_punctuation c = true <-> S_ja_punct c) /\
  (is_char_english_punctuation c = true <-> S_en_punct c) /\
  (is_char_japanese c = true <-> S_japanese c) /\
  (* and they fit together *)
  (is_char_kana c = true <-> is_char_hiragana c = true \/ is_char_katakana c = true) /\
  (is_char_punctuation c = true <->
     is_char_english_punctuation c = true \/ is_char_japanese_punctuation c = true) /\
  (is_char_kana c = true \/ is_char_kanji c = true \/ is_char_japanese_number c = true
     \/ is_char_japanese_punctuation c = true -> is_char_japanese c = true) /\
  (is_char_romaji c = true -> is_char_japanese c = false) /\
  (is_char_english_punctuation c = true -> is_char_japanese_punctuation c = false
     /\ is_char_japanese c = false) /\
  (is_char_hiragana c = true -> is_char_katakana c = true -> c = ch "ー") /\
  (is_char_kana c = true -> is_char_kanji c = false).

Lemma C35_holds : C35_statement.
Proof.
  intro c.
  split; [apply hiragana_spec|]. split; [apply katakana_spec|]. split; [apply kanji_spec|].
  split; [apply romaji_spec|]. split; [apply ja_number_spec|]. split; [apply ja_punct_spec|].
  split; [apply en_punct_spec|]. split; [apply japanese_spec|].
  split. { unfold is_char_kana. rewrite orb_true_iff. reflexivity. }
  split. { unfold is_char_punctuation. rewrite orb_true_iff. reflexivity. }
  change (ch "ー") with 0x30FC.
  unf. repeat split; ifs; lia.
Qed.

(** ** C36 *)
Definition all_nonempty (P : N -> Prop) (s : str) : Prop := s <> [] /\ forall c, In c s -> P c.

Lemma all_pred (f : N -> bool) (P : N -> Prop) (s : str) : (forall c, f c = true <-> P c) ->
  (if is_empty s then false else forallb f s) = true <-> all_nonempty P s.
Proof.
  intro H. unfold all_nonempty. destruct s as [|a s]; cbn [is_empty].
  - split; [discriminate|]. intros [A _]. congruence.
  - rewrite forallb_forall. split.
    + intro A. split; [discriminate|]. intros c I. apply H, A, I.
    + intros [_ A] c I. apply H, A, I.
Qed.

Definition C36_statement : Prop :=
  (forall s, is_hiragana s = true <-> all_nonempty S_hiragana s) /\
  (forall s, is_katakana s = true <-> all_nonempty S_katakana s) /\
  (forall s, is_kana s = true <-> all_nonempty (fun c => S_hiragana c \/ S_katakana c) s) /\
  (forall s, is_kanji s = true <-> all_nonempty S_kanji s) /\
  (forall s, is_romaji s = true <-> all_nonempty S_romaji s) /\
  (forall s, is_japanese s = true <-> all_nonempty S_japanese s) /\
  (forall s, contains_kanji s = true <-> exists c, In c s /\ S_kanji c) /\
  (* homomorphisms on non-empty concatenations *)
  (forall a b, a <> [] -> b <> [] ->
     is_hiragana (a ++ b) = is_hiragana a && is_hiragana b /\
     is_katakana (a ++ b) = is_katakana a && is_katakana b /\
     is_kana (a ++ b) = is_kana a && is_kana b /\
     is_kanji (a ++ b) = is_kanji a && is_kanji b /\
     is_romaji (a ++ b) = is_romaji a && is_romaji b /\
     is_japanese (a ++ b) = is_japanese a && is_japanese b) /\
  (forall a b, contains_kanji (a ++ b) = contains_kanji a || contains_kanji b).

Lemma hom_all (f : N -> bool) a b : a <> [] -> b <> [] ->
  (if is_empty (a ++ b) then false else forallb f (a ++ b))
  = (if is_empty a then false else forallb f a) && (if is_empty b then false else forallb f b).
Proof.
  intros A B. destruct a as [|x a]; [congruence|]. destruct b as [|y b]; [congruence|].
  cbn [is_empty app]. rewrite <- forallb_app. reflexivity.
Qed.

Lemma C36_holds : C36_statement.
Proof.
  unfold C36_statement.
  split; [intro; apply all_pred, hiragana_spec|].
  split; [intro; apply all_pred, katakana_spec|].
  split. { intro; apply all_pred. intro c. unfold is_char_kana.
           rewrite orb_true_iff, hiragana_spec, katakana_spec. reflexivity. }
  split; [intro; apply all_pred, kanji_spec|].
  split; [intro; apply all_pred, romaji_spec|].
  split; [intro; apply all_pred, japanese_spec|].
  split.
  { intro s. unfold contains_kanji. destruct s as [|a s]; cbn [is_empty].
    - split; [discriminate|]. intros (c & [] & _).
    - rewrite existsb_exists. split; intros (c & I & K); exists c; split; auto; now apply kanji_spec. }
  split.
  - intros a b A B. repeat split; now apply hom_all.
  - intros a b. unfold contains_kanji. destruct a as [|x a]; [destruct b; reflexivity|].
    destruct b as [|y b].
    + rewrite app_nil_r. cbn [is_empty]. now rewrite orb_false_r.
    + cbn [is_empty app]. rewrite <- existsb_app. reflexivity.
Qed.

(** ** C37 *)
Definition C37_statement : Prop := forall s,
  (is_hiragana s = true \/ is_katakana s = true -> is_kana s = true) /\
  (is_kana s = true -> is_japanese s = true /\ contains_kanji s = false) /\
  (is_kanji s = true -> is_japanese s = true /\ contains_kanji s = true /\ is_kana s = false) /\
  (is_romaji s = true -> is_japanese s = false /\ is_kana s = false /\ is_kanji s = false
     /\ contains_kanji s = false /\ is_mixed s = false) /\
  (is_japanese s = true -> is_mixed s = false).

Lemma nonempty_head {P : N -> Prop} s : all_nonempty P s -> exists c, In c s /\ P c.
Proof. intros [A B]. destruct s as [|c s]; [congruence|]. exists c. split; [|apply B]; now left. Qed.

Lemma not_true (b : bool) : ~ (b = true) -> b = false.
Proof. destruct b; congruence. Qed.

Lemma C37_holds : C37_statement.
Proof.
  pose proof C36_holds as (Hh & Hk & Hka & Hkj & Hr & Hj & Hc & _).
  intro s. repeat match goal with |- _ /\ _ => split end.
  - rewrite Hh, Hk, Hka. intros [[A B]|[A B]]; split; auto.
  - intro A. split; [|apply not_true; rewrite Hc]; rewrite Hka in A.
    + rewrite Hj. destruct A as [A B]. split; auto. intros c I. apply B in I. unf. lia.
    + intros (c & I & K). destruct A as [A B]. apply B in I. unf. lia.
  - intro A. rewrite Hkj in A. split; [|split].
    + rewrite Hj. destruct A as [A B]. split; auto. intros c I. apply B in I. unf. lia.
    + rewrite Hc. now apply nonempty_head.
    + apply not_true. rewrite Hka. intros [_ B]. destruct (nonempty_head _ A) as (c & I & K).
      apply B in I. unf. lia.
  - intro A. rewrite Hr in A. pose proof (nonempty_head _ A) as (c & I & K).
    apply romaji_spec in K.
    destruct (C35_holds c) as (_ & _ & _ & _ & _ & _ & _ & S8 & S9 & _ & S11 & S12 & _).
    apply S12 in K.
    repeat split; apply not_true.
    + rewrite Hj. intros [_ B]. apply B in I. apply japanese_spec in I. congruence.
    + rewrite Hka. intros [_ B]. apply B in I. rewrite <- hiragana_spec, <- katakana_spec in I.
      rewrite S11 in K; [discriminate|]. left. now apply S9.
    + rewrite Hkj. intros [_ B]. apply B in I. apply kanji_spec in I.
      rewrite S11 in K; [discriminate|]. auto.
    + rewrite Hc. intros (d & J & B). destruct A as [_ A]. apply A in J.
      apply romaji_spec in J. apply kanji_spec in B.
      destruct (C35_holds d) as (_ & _ & _ & _ & _ & _ & _ & _ & _ & _ & T11 & T12 & _).
      apply T12 in J. rewrite T11 in J; [discriminate|]. auto.
    + unfold is_mixed, is_mixed_pass_kanji. intro M. apply andb_prop in M. destruct M as [M _].
      apply andb_prop in M. destruct M as [M _].
      assert (exists d, In d s /\ is_char_kana d = true) as (d & J & B).
      { unfold is_char_kana. apply orb_prop in M. destruct M as [M|M]; apply existsb_exists in M;
          destruct M as (d & J & B); exists d; rewrite B; auto using orb_true_r. }
      destruct A as [_ A]. apply A in J. apply romaji_spec in J.
      destruct (C35_holds d) as (_ & _ & _ & _ & _ & _ & _ & _ & _ & _ & T11 & T12 & _).
      apply T12 in J. rewrite T11 in J; [discriminate|]. auto.
  - intro A. rewrite Hj in A. destruct A as [_ A]. apply not_true.
    unfold is_mixed, is_mixed_pass_kanji. intro M. apply andb_prop in M. destruct M as [M _].
    apply andb_prop in M. destruct M as [_ M]. apply existsb_exists in M. destruct M as (d & J & B).
    apply A in J. apply japanese_spec in J.
    destruct (C35_holds d) as (_ & _ & _ & _ & _ & _ & _ & _ & _ & _ & _ & T12 & _).
    apply T12 in B. congruence.
Qed.

(** ** C38 *)
Definition has (P : N -> Prop) (s : str) : Prop := exists c, In c s /\ P c.

Definition C38_statement : Prop :=
  (forall s, is_mixed s = true <->
     has (fun c => S_hiragana c \/ S_katakana c) s /\ has S_romaji s) /\
  (forall s, is_mixed_pass_kanji s true = is_mixed s) /\
  (forall s, is_mixed_pass_kanji s false = true <-> is_mixed s = true /\ ~ has S_kanji s) /\
  (* order and multiplicity do not matter *)
  (forall s t p, (forall c, In c s <-> In c t) ->
     is_mixed_pass_kanji s p = is_mixed_pass_kanji t p).

Lemma has_existsb (f : N -> bool) (P : N -> Prop) s : (forall c, f c = true <-> P c) ->
  existsb f s = true <-> has P s.
Proof.
  intro H. rewrite existsb_exists. unfold has.
  split; intros (c & I & K); exists c; split; auto; now apply H.
Qed.

Lemma mixed_iff s : is_mixed s = true <->
     has (fun c => S_hiragana c \/ S_katakana c) s /\ has S_romaji s.
Proof.
  unfold is_mixed, is_mixed_pass_kanji. cbn [negb]. rewrite andb_true_r, andb_true_iff, orb_true_iff.
  rewrite (has_existsb _ _ s hiragana_spec), (has_existsb _ _ s katakana_spec),
    (has_existsb _ _ s romaji_spec).
  unfold has. split.
  - intros [[(c & I & K)|(c & I & K)] R]; split; auto; exists c; auto.
  - intros [(c & I & [K|K]) R]; split; auto; [left|right]; exists c; auto.
Qed.

Lemma existsb_ext_set (f : N -> bool) s t : (forall c, In c s <-> In c t) ->
  existsb f s = existsb f t.
Proof.
  intro H. apply eq_true_iff_eq. rewrite !existsb_exists.
  split; intros (c & I & K); exists c; split; auto; now apply H.
Qed.

Lemma C38_holds : C38_statement.
Proof.
  split; [exact mixed_iff|]. split; [reflexivity|]. split.
  - intro s. rewrite mixed_iff, <- mixed_iff. unfold is_mixed, is_mixed_pass_kanji.
    cbn [negb]. rewrite andb_true_r, andb_true_iff, negb_true_iff.
    rewrite <- (has_existsb _ _ s kanji_spec).
    destruct (existsb is_char_kanji s); intuition congruence.
  - intros s t p H. unfold is_mixed_pass_kanji. rewrite !(existsb_ext_set _ s t H). reflexivity.
Qed.

(** ** C39 *)
Definition C39_partial_statement : Prop :=
  (forall s, is_japanese_with_whitelist s None = is_japanese s) /\
  (forall s, is_romaji_with_whitelist s None = is_romaji s) /\
  (* what the code does: the regex is run on the WHOLE text *)
  (forall s (re : regex), is_japanese_with_whitelist s (Some re) = true <->
     s <> [] /\ ((forall c, In c s -> S_japanese c) \/ re s = true)) /\
  (forall s (re : regex), is_romaji_with_whitelist s (Some re) = true <->
     s <> [] /\ ((forall c, In c s -> S_romaji c) \/ re s = true)).

Lemma whitelist_iff (f : N -> bool) (P : N -> Prop) s (re : regex) :
  (forall c, f c = true <-> P c) ->
  (if is_empty s then false else forallb (fun c =>
    if negb (f c) then re s else f c) s) = true <->
  s <> [] /\ ((forall c, In c s -> P c) \/ re s = true).
Proof.
  intro H. destruct (is_empty s) eqn:N0.
  { destruct s; [|discriminate]. split; [discriminate|]. intros [A _]. congruence. }
  assert (s <> []) by (destruct s; discriminate).
  rewrite forallb_forall. split.
  - intro A. split; [assumption|]. destruct (re s) eqn:R; [auto|]. left.
    intros c I. apply H. specialize (A c I). destruct (f c); auto.
  - intros [_ [A|A]] c I.
    + apply A in I. apply H in I. rewrite I. reflexivity.
    + rewrite A. destruct (f c); reflexivity.
Qed.

Lemma forallb_ext1 (f g : N -> bool) l : (forall c, f c = g c) -> forallb f l = forallb g l.
Proof. intro H. induction l as [|c l IH]; [reflexivity|]. cbn. now rewrite H, IH. Qed.

Lemma C39_partial_holds : C39_partial_statement.
Proof.
  split; [|split; [|split]].
  - intro s. unfold is_japanese_with_whitelist, is_japanese. destruct (is_empty s); [reflexivity|].
    apply forallb_ext1. intro c. destruct (is_char_japanese c); reflexivity.
  - intro s. unfold is_romaji_with_whitelist, is_romaji. destruct (is_empty s); [reflexivity|].
    apply forallb_ext1. intro c. destruct (is_char_romaji c); reflexivity.
  - intros s re. apply whitelist_iff, japanese_spec.
  - intros s re. apply whitelist_iff, romaji_spec.
Qed.

(** the documented reading: each character is in the class or matches the regex *)
Definition C39_documented : Prop := forall s (re : regex),
  is_japanese_with_whitelist s (Some re) = true <->
  s <> [] /\ forall c, In c s -> S_japanese c \/ re [c] = true.

(** witness: regex "contains ≪ or ≫", text "≪a≫": accepted although [a] is neither *)
Definition re_contains (l : str) : regex := fun s => existsb (fun c => char_in c l) s.
Lemma C39_refuted_holds : ~ C39_documented.
Proof.
  intro H. specialize (H (u "≪a≫") (re_contains (u "≪≫"))).
  destruct H as [H _]. destruct H as [_ H]; [vm_compute; reflexivity|].
  destruct (H (ch "a")) as [A|A].
  - vm_compute. auto.
  - apply japanese_spec in A. vm_compute in A. discriminate.
  - vm_compute in A. discriminate.
Qed.
