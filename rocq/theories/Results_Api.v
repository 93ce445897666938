(** * Proofs of the theorem of Props_Api.v *)
From Verif Require Import Base Std KanaDict Constants Chars Strings Convert Traits TraitsSpec
  KanaSpec ScriptSpec ScriptProofs RomajiSpec Predicates Results_Kana Results_Script Results_Romaji Results_Predicates.

Lemma mode_spelled o m :
  (use_obsolete_kana o = true -> m = Obsolete) ->
  (use_obsolete_kana o = false -> imemode o = true -> m = Ime) ->
  (use_obsolete_kana o = false -> imemode o = false -> m = Default) -> m = mode_of o.
Proof. unfold mode_of. destruct (use_obsolete_kana o), (imemode o); auto. Qed.

Lemma hira_methods E s o : std_ok E ->
  (forall t, to_hiragana_with_opt E s o = Ok t ->
     hiragana_conversion (to_lowercase E) (mode_of o) (pass_romaji o) s t) /\
  (~ In (ch "ヴ") s -> forall t,
     hiragana_conversion (to_lowercase E) (mode_of o) (pass_romaji o) s t -> to_hiragana_with_opt E s o = Ok t).
Proof.
  intros HE. destruct (pass_romaji o) eqn:Hp.
  - destruct (C19_pass_romaji_proof E HE s o Hp) as (_ & A & B & _). split.
    + intros t H. apply HC_pass; auto.
    + intros N t H. apply (B N). destruct H; auto; discriminate.
  - destruct (C61_to_hiragana_described_proof E HE) as (A & _).
    destruct (A s o Hp) as (A1 & A2 & A3).
    destruct (is_mixed s) eqn:Hm.
    { apply mixed_spec in Hm. split.
      - intros t H. destruct (proj1 (A1 Hm t) H) as (h & H1 & H2). eapply HC_mixed; eauto.
      - intros N t H. apply (A1 Hm t); auto. destruct H as [?|h ? ? ? ?|? M|? M]; try easy. eauto. }
    assert (Nm : ~ mixed_text s) by (rewrite <- mixed_spec, Hm; discriminate).
    assert (D : (all_nonempty S_romaji s \/ starts_with_punct s) \/
                (~ all_nonempty S_romaji s /\ ~ starts_with_punct s)).
    { rewrite <- first_punct_spec, <- romaji_text_spec.
      destruct (is_romaji s), (first_punct s); auto; right; split; discriminate. }
    destruct D as [D|(D1 & D2)].
    + split; [intros t H; apply HC_romaji; auto; now apply A2|].
      intros N t H. apply A2; auto. destruct H; try easy. tauto.
    + split; [intros t H; apply HC_other; auto; now apply A3|].
      intros N t H. apply A3; auto. destruct H; try easy. tauto.
Qed.

Lemma kata_methods E s o : std_ok E -> forall t,
  to_katakana_with_opt E s o = Ok t <-> katakana_conversion (to_lowercase E) (mode_of o) (pass_romaji o) s t.
Proof.
  intros HE t. destruct (pass_romaji o) eqn:Hp.
  - destruct (C19_pass_romaji_proof E HE s o Hp) as (A & _). rewrite A. split.
    + intros H. now apply KC_pass.
    + intros []; auto; discriminate.
  - destruct (C62_to_katakana_described_proof E HE s o Hp) as (A1 & A2).
    assert (D : (all_nonempty S_romaji s \/ mixed_text s) \/ (~ all_nonempty S_romaji s /\ ~ mixed_text s)).
    { rewrite <- mixed_spec, <- romaji_text_spec.
      destruct (is_romaji s), (is_mixed s); auto; right; split; discriminate. }
    destruct D as [D|(D1 & D2)].
    + rewrite (A1 D). split.
      * intros (h & H1 & H2). eapply KC_romaji; eauto.
      * intros [?|h ? ? ? ?|]; try easy; [eauto|tauto].
    + rewrite (A2 D1 D2). split.
      * intros H. now apply KC_other.
      * intros [?|h ? ? ? ?|]; try easy. tauto.
Qed.

Lemma romaji_methods E s o : std_ok E ->
  (forall t, to_romaji_with_opt E s o = Ok t -> romaji_conversion (upcase_katakana o) s t) /\
  (~ In (ch "ヴ") s -> ~ In (ch "ゔ") s -> forall t,
     romaji_conversion (upcase_katakana o) s t -> to_romaji_with_opt E s o = Ok t).
Proof.
  intros HE. split.
  - intros t H. exact (proj1 (C55_to_romaji_romanises_proof E HE s o t) H).
  - intros N1 N2 t H. exact (proj2 (C55_to_romaji_romanises_proof E HE s o t) N1 N2 H).
Qed.

Lemma C68_public_methods_proof :
  (forall E, std_ok E -> forall s,
    (forall t, str_to_kana E s = Ok t <-> converts Default s t) /\
    (forall t, str_to_hiragana E s = Ok t -> hiragana_conversion (to_lowercase E) Default false s t) /\
    (~ In (ch "ヴ") s -> forall t,
       hiragana_conversion (to_lowercase E) Default false s t -> str_to_hiragana E s = Ok t) /\
    (forall t, str_to_katakana E s = Ok t <-> katakana_conversion (to_lowercase E) Default false s t) /\
    (forall t, str_to_romaji E s = Ok t -> romaji_conversion false s t) /\
    (~ In (ch "ヴ") s -> ~ In (ch "ゔ") s -> forall t, romaji_conversion false s t -> str_to_romaji E s = Ok t) /\
    (forall o m, (use_obsolete_kana o = true -> m = Obsolete) ->
       (use_obsolete_kana o = false -> imemode o = true -> m = Ime) ->
       (use_obsolete_kana o = false -> imemode o = false -> m = Default) ->
       (forall t, str_to_kana_with_opt E s o = Ok t <-> converts m s t) /\
       (forall t, str_to_hiragana_with_opt E s o = Ok t ->
          hiragana_conversion (to_lowercase E) m (pass_romaji o) s t) /\
       (~ In (ch "ヴ") s -> forall t,
          hiragana_conversion (to_lowercase E) m (pass_romaji o) s t -> str_to_hiragana_with_opt E s o = Ok t) /\
       (forall t, str_to_katakana_with_opt E s o = Ok t <->
          katakana_conversion (to_lowercase E) m (pass_romaji o) s t)) /\
    (forall o t, str_to_romaji_with_opt E s o = Ok t -> romaji_conversion (upcase_katakana o) s t) /\
    (~ In (ch "ヴ") s -> ~ In (ch "ゔ") s -> forall o t,
       romaji_conversion (upcase_katakana o) s t -> str_to_romaji_with_opt E s o = Ok t)) /\
  (forall s,
    (str_is_hiragana s = true <-> all_nonempty S_hiragana s) /\
    (str_is_katakana s = true <-> all_nonempty S_katakana s) /\
    (str_is_kana s = true <-> all_nonempty (fun c => S_hiragana c \/ S_katakana c) s) /\
    (str_is_kanji s = true <-> all_nonempty S_kanji s) /\
    (str_contains_kanji s = true <-> has S_kanji s) /\
    (str_is_japanese s = true <-> all_nonempty S_japanese s) /\
    (str_is_romaji s = true <-> all_nonempty S_romaji s) /\
    (forall re : regex, str_is_japanese_with_whitelist s (Some re) = true <->
       s <> [] /\ ((forall c, In c s -> S_japanese c) \/ re s = true)) /\
    (str_is_japanese_with_whitelist s None = true <-> all_nonempty S_japanese s) /\
    (forall re : regex, str_is_romaji_with_whitelist s (Some re) = true <->
       s <> [] /\ ((forall c, In c s -> S_romaji c) \/ re s = true)) /\
    (str_is_romaji_with_whitelist s None = true <-> all_nonempty S_romaji s) /\
    (str_is_mixed s = true <-> mixed_text s) /\
    (str_is_mixed_pass_kanji s true = true <-> mixed_text s) /\
    (str_is_mixed_pass_kanji s false = true <-> mixed_text s /\ ~ has S_kanji s)) /\
  (forall c,
    (chr_is_hiragana c = true <-> S_hiragana c) /\
    (chr_is_katakana c = true <-> S_katakana c) /\
    (chr_is_kana c = true <-> S_hiragana c \/ S_katakana c) /\
    (chr_is_kanji c = true <-> S_kanji c) /\
    (chr_is_japanese c = true <-> S_japanese c) /\
    (chr_is_japanese_number c = true <-> S_ja_number c) /\
    (chr_is_japanese_punctuation c = true <-> S_ja_punct c)).
Proof.
  split; [|split].
  - intros E HE s.
    assert (K : forall o t, to_kana_with_opt E s o = Ok t <-> converts (mode_of o) s t)
      by (intros; now apply C05_to_kana_converts_proof).
    destruct (hira_methods E s default_options HE) as (H1 & H2).
    destruct (romaji_methods E s default_options HE) as (R1 & R2).
    split; [exact (K default_options)|].
    split; [exact H1|]. split; [exact H2|].
    split; [exact (kata_methods E s default_options HE)|].
    split; [exact R1|]. split; [exact R2|].
    split; [|split; [exact (fun o => proj1 (romaji_methods E s o HE))|
                     exact (fun N1 N2 o => proj2 (romaji_methods E s o HE) N1 N2)]].
    intros o m M1 M2 M3. rewrite (mode_spelled o m M1 M2 M3).
    split; [exact (K o)|]. split; [exact (proj1 (hira_methods E s o HE))|].
    split; [exact (proj2 (hira_methods E s o HE))|exact (kata_methods E s o HE)].
  - intros s. destruct C36_string_predicates_proof as (A1 & A2 & A3 & A4 & A5 & A6 & A7 & _).
    destruct C38_is_mixed_proof as (B1 & B2 & B3 & _).
    destruct C39_whitelist_partial_proof as (W1 & W2 & W3 & W4).
    split; [exact (A1 s)|]. split; [exact (A2 s)|]. split; [exact (A3 s)|]. split; [exact (A4 s)|].
    split; [exact (A7 s)|]. split; [exact (A6 s)|]. split; [exact (A5 s)|].
    split; [exact (W3 s)|]. split; [unfold str_is_japanese_with_whitelist; rewrite W1; exact (A6 s)|].
    split; [exact (W4 s)|]. split; [unfold str_is_romaji_with_whitelist; rewrite W2; exact (A5 s)|].
    split; [exact (mixed_spec s)|]. split; [unfold str_is_mixed_pass_kanji; rewrite B2; exact (mixed_spec s)|].
    rewrite <- mixed_spec. exact (B3 s).
  - intros c. destruct (C35_character_classes_proof c) as (A1 & A2 & A3 & _ & A5 & A6 & _ & A8 & A9 & _).
    split; [exact A1|]. split; [exact A2|]. split; [unfold chr_is_kana; rewrite A9, A1, A2; reflexivity|].
    split; [exact A3|]. split; [exact A8|]. split; [exact A5|exact A6].
Qed.
