(** * Proofs of the theorems of Props_Script.v *)
From Verif Require Import Base Tac Std StdInstances Chars Strings Convert KanaPure RomajiPure KanaSpec
  KanaDict KanaProofs Predicates ScriptSpec ScriptProofs ScriptIdem
  LibrarySpec LibraryProofs ExactSpec Exact ExactScript LowerTwice.

Lemma hira_iff E o s t : std_ok E -> to_hiragana_with_opt E s o = Ok t <-> t = hira_pure E o s.
Proof. intro HE. rewrite to_hiragana_with_opt_eq by exact HE. split; [now intros [= <-]|now intros ->]. Qed.
Lemma kata_iff E o s t : std_ok E -> to_katakana_with_opt E s o = Ok t <-> t = kata_pure E o s.
Proof. intro HE. rewrite to_katakana_with_opt_eq by exact HE. split; [now intros [= <-]|now intros ->]. Qed.
Lemma katakana_cases x : ~ katakana_letter x \/ x = 0x30F5 \/ x = 0x30F6 ->
  katakana_letter x -> In x (u "ヵヶ").
Proof. change (u "ヵヶ") with [0x30F5; 0x30F6]. cbn [In]. intuition auto. Qed.

Lemma C16_to_katakana_no_hiragana_proof :
  forall E, std_ok E -> forall s o t, to_katakana_with_opt E s o = Ok t ->
    forall c, In c t -> ~ hiragana_letter c.
Proof.
  intros E HE s o t T c I. apply kata_iff in T; [|exact HE]. subst t. now apply kata_no_hiragana in I.
Qed.

Lemma C17_to_hiragana_no_katakana_partial_proof :
  forall E, std_ok E -> forall s o t, to_hiragana_with_opt E s o = Ok t ->
    ((exists c, In c t /\ katakana_letter c /\ ~ In c (u "ヵヶ")) <->
     pass_romaji o = false /\ ~ mixed_text s /\ (exists q r, s = q :: r /\ smart_quote q) /\
     exists c, In c s /\ katakana_letter c /\ ~ In c (u "ヵヶ")).
Proof.
  intros E HE s o t T. apply hira_iff in T; [|exact HE]. subst t. exact (hira_katakana_exact E o s HE).
Qed.

Lemma C17_to_hiragana_no_katakana_refuted_proof :
  forall E, std_ok E -> exists s t, to_hiragana E s = Ok t /\
    exists c, In c t /\ katakana_letter c /\ ~ In c (u "ヵヶ").
Proof.
  intros E HE. exists (u "‘カ"), (u "「カ"). split.
  - change (to_hiragana E (u "‘カ")) with (to_hiragana_with_opt E (u "‘カ") default_options).
    rewrite to_hiragana_with_opt_eq by exact HE. unfold hira_pure.
    replace (pass_romaji default_options) with false by reflexivity.
    replace (is_mixed (u "‘カ")) with false by (vm_compute; reflexivity).
    replace (is_romaji (u "‘カ") || first_punct (u "‘カ")) with true by (vm_compute; reflexivity).
    replace (to_lowercase E (u "‘カ")) with (u "‘カ"); [vm_compute; reflexivity|].
    unfold to_lowercase. change (u "‘カ") with [0x2018; 0x30AB]. cbn [to_lowercase_from].
    replace (0x2018 =? SIGMA) with false by reflexivity. replace (0x30AB =? SIGMA) with false by reflexivity.
    rewrite !(ok_lower_caseless E HE) by reflexivity. reflexivity.
  - exists (ch "カ"). split; [vm_compute; auto|]. split; [vm_compute; split; discriminate|].
    vm_compute. intuition discriminate.
Qed.

Lemma C18_letter_case_ignored_proof :
  forall E, std_ok E -> forall s s' o, pass_romaji o = false -> same_up_to_case s s' ->
    (all_nonempty S_romaji s \/ (has (fun c => S_hiragana c \/ S_katakana c) s /\ has S_romaji s)) ->
    to_hiragana_with_opt E s o = to_hiragana_with_opt E s' o /\
    to_katakana_with_opt E s o = to_katakana_with_opt E s' o.
Proof.
  intros E HE s s' o P C R. apply same_up_to_case_low in C.
  rewrite !to_hiragana_with_opt_eq, !to_katakana_with_opt_eq by exact HE.
  assert (R' : is_romaji s = true \/ is_mixed s = true).
  { destruct R as [R|R]; [left; now apply C36_holds|right; now apply mixed_iff]. }
  split; f_equal; [now apply hira_ci|now apply kata_ci].
Qed.

Lemma C19_pass_romaji_proof :
  forall E, std_ok E -> forall s o, pass_romaji o = true ->
    (forall t, to_katakana_with_opt E s o = Ok t <-> Forall2 katakana_for s t) /\
    (forall t, to_hiragana_with_opt E s o = Ok t -> hiragana_text (u "う") [] s t) /\
    (~ In (ch "ヴ") s -> forall t, to_hiragana_with_opt E s o = Ok t <-> hiragana_text (u "う") [] s t) /\
    (~ In long_mark s -> forall t, to_hiragana_with_opt E s o = Ok t <-> Forall2 hiragana_for s t).
Proof.
  intros E HE s o P. repeat split.
  - intro T. apply kata_iff in T; [|exact HE]. subst t. unfold kata_pure. rewrite P. now apply h2k_spec.
  - intro T. apply kata_iff; [exact HE|]. unfold kata_pure. rewrite P. apply h2k_spec in T. now rewrite T.
  - intros t T. apply hira_iff in T; [|exact HE]. subst t. unfold hira_pure. rewrite P. now apply (k2h_text E false).
  - intro T. apply hira_iff in T; [|exact HE]. subst t. unfold hira_pure. rewrite P. now apply (k2h_text E false).
  - intro T. apply hira_iff; [exact HE|]. unfold hira_pure. rewrite P.
    eapply hiragana_text_det; [|exact T|now apply (k2h_text E false)]. exact H.
  - intro T. apply hira_iff in T; [|exact HE]. subst t. unfold hira_pure. rewrite P.
    rewrite k2h_no_dash by exact H. now apply k2hc_map.
  - intro T. apply hira_iff; [exact HE|]. unfold hira_pure. rewrite P.
    rewrite k2h_no_dash by exact H. apply k2hc_map in T. now rewrite T.
Qed.

Lemma C20_round_trip_proof :
  forall E, std_ok E -> forall o o',
    (forall h t, (forall c, In c h -> hiragana_letter c /\ ~ In c (u "ゕゖ")) ->
       to_katakana_with_opt E h o = Ok t -> to_hiragana_with_opt E t o' = Ok h) /\
    (forall k t, (forall c, In c k -> katakana_letter c /\ ~ In c (u "ヷヸヹヺ") \/ c = ch "・") ->
       to_hiragana_with_opt E k o = Ok t -> to_katakana_with_opt E t o' = Ok k).
Proof.
  intros E HE o o'. split.
  - intros h t H T. apply kata_iff in T; [|exact HE]. subst t. apply hira_iff; [exact HE|].
    symmetry. apply hira_kata_hira. intros c I. destruct (H c I) as [A B]. unfold hiragana_letter in A.
    change (u "ゕゖ") with [0x3095; 0x3096] in B. cbn [In] in B. lia.
  - intros k t H T. apply hira_iff in T; [|exact HE]. subst t. apply kata_iff; [exact HE|].
    symmetry. apply kata_hira_kata. intros c I. destruct (H c I) as [[A B]|A].
    + unfold katakana_letter in A. change (u "ヷヸヹヺ") with [0x30F7; 0x30F8; 0x30F9; 0x30FA] in B. cbn [In] in B. lia.
    + change (ch "・") with 0x30FB in A. auto.
Qed.

Lemma C21_fixed_points_proof :
  forall E, std_ok E -> forall s o,
    ((forall c, In c s -> S_hiragana c) -> to_hiragana_with_opt E s o = Ok s) /\
    ((forall c, In c s -> S_katakana c) -> to_katakana_with_opt E s o = Ok s).
Proof.
  intros E HE s o. split; intro H; [apply hira_iff|apply kata_iff]; try exact HE; symmetry;
    [now apply hira_fixed|now apply kata_fixed].
Qed.

Lemma C22_long_marks_proof :
  forall E, std_ok E -> forall o ms, Forall (word_letter (u "う")) ms -> ~ In (ch "ヴ") (word_katakana ms) ->
    to_hiragana_with_opt E (word_katakana ms) o = Ok (word_hiragana ms).
Proof.
  intros E HE o ms F V. apply hira_iff; [exact HE|]. symmetry. now apply hira_word.
Qed.

Lemma C61_to_hiragana_described_proof :
  forall E, std_ok E ->
    (forall s o, pass_romaji o = false ->
       (mixed_text s -> forall t,
          (to_hiragana_with_opt E s o = Ok t ->
             exists h, hiragana_text (u "う") [] s h /\ converts (mode_of o) (to_lowercase E h) t) /\
          (~ In (ch "ヴ") s ->
             (exists h, hiragana_text (u "う") [] s h /\ converts (mode_of o) (to_lowercase E h) t) ->
             to_hiragana_with_opt E s o = Ok t)) /\
       (~ mixed_text s -> all_nonempty S_romaji s \/ starts_with_punct s -> forall t,
          to_hiragana_with_opt E s o = Ok t <-> converts (mode_of o) (to_lowercase E s) t) /\
       (~ mixed_text s -> ~ all_nonempty S_romaji s -> ~ starts_with_punct s -> forall t,
          (to_hiragana_with_opt E s o = Ok t -> hiragana_text (u "う") [] s t) /\
          (~ In (ch "ヴ") s -> hiragana_text (u "う") [] s t -> to_hiragana_with_opt E s o = Ok t))) /\
    (forall l, ascii_or_caseless l -> Forall2 lowers l (to_lowercase E l)).
Proof.
  intros E HE. split.
  - intros s o P.
    assert (T : hiragana_text (u "う") [] s (k2h E false s)) by exact (k2h_text E false s HE).
    assert (D : forall h, ~ In (ch "ヴ") s -> hiragana_text (u "う") [] s h -> h = k2h E false s).
    { intros h V H. eapply hiragana_text_det; [|exact H|exact T]. exact V. }
    split; [|split].
    + intros M t. apply mixed_spec in M. rewrite hira_iff by exact HE. unfold hira_pure. rewrite P, M.
      rewrite k_tree_mode. split.
      * intros ->. exists (k2h E false s). split; [exact T|]. now apply converts_iff.
      * intros V (h & H1 & H2). rewrite (D h V H1) in H2. now apply converts_iff in H2.
    + intros M R t. rewrite hira_iff by exact HE. unfold hira_pure. rewrite P.
      rewrite <- mixed_spec in M. apply not_true_iff_false in M. rewrite M.
      rewrite <- romaji_text_spec, <- first_punct_spec, <- orb_true_iff in R. rewrite R.
      rewrite k_tree_mode. symmetry. apply converts_iff.
    + intros M R1 R2 t. rewrite hira_iff by exact HE. unfold hira_pure. rewrite P.
      rewrite <- mixed_spec in M. apply not_true_iff_false in M. rewrite M.
      rewrite <- romaji_text_spec in R1. apply not_true_iff_false in R1.
      rewrite <- first_punct_spec in R2. apply not_true_iff_false in R2. rewrite R1, R2. cbn [orb].
      split; [now intros ->|]. intros V H. now apply D.
  - intros l H. rewrite lower_low by assumption. apply low_lowers.
Qed.

Lemma C62_to_katakana_described_proof :
  forall E, std_ok E -> forall s o, pass_romaji o = false ->
    (all_nonempty S_romaji s \/ mixed_text s -> forall t,
       to_katakana_with_opt E s o = Ok t <->
       exists h, converts (mode_of o) (to_lowercase E s) h /\ Forall2 katakana_for h t) /\
    (~ all_nonempty S_romaji s -> ~ mixed_text s -> forall t,
       to_katakana_with_opt E s o = Ok t <-> Forall2 katakana_for s t).
Proof.
  intros E HE s o P. split.
  - intros R t. rewrite kata_iff by exact HE. unfold kata_pure. rewrite P.
    rewrite <- mixed_spec, <- romaji_text_spec, <- orb_true_iff in R. rewrite R, k_tree_mode. split.
    + intros ->. eexists. split; [now apply converts_iff|]. now apply h2k_spec.
    + intros (h & H1 & H2). apply converts_iff in H1. apply h2k_spec in H2. congruence.
  - intros R M t. rewrite kata_iff by exact HE. unfold kata_pure. rewrite P.
    rewrite <- mixed_spec in M. apply not_true_iff_false in M.
    rewrite <- romaji_text_spec in R. apply not_true_iff_false in R. rewrite R, M. cbn [orb].
    rewrite h2k_spec. split; auto.
Qed.

Lemma C63_library_independent_proof :
  forall s o,
    (forall E E', std_ok E -> std_ok E' -> to_kana_with_opt E s o = to_kana_with_opt E' s o) /\
    (ascii_or_caseless s ->
       (forall E E', std_ok E -> std_ok E' -> to_katakana_with_opt E s o = to_katakana_with_opt E' s o) /\
       ((forall E E', std_ok E -> std_ok E' -> to_hiragana_with_opt E s o = to_hiragana_with_opt E' s o) <->
        ~ (long_v s /\ (pass_romaji o = true \/ mixed_text s \/ ~ starts_with_punct s)))).
Proof.
  intros s o. split; [intros E E' HE HE'; now rewrite !to_kana_with_opt_eq|]. intro A. split.
  - intros E E' HE HE'. rewrite !to_katakana_with_opt_eq by assumption. unfold kata_pure. now rewrite !lower_low.
  - rewrite <- (hira_determined s o A). split; intros H E E' HE HE'; specialize (H E E' HE HE');
      rewrite !to_hiragana_with_opt_eq in * by assumption; congruence.
Qed.

Lemma C64_idempotent_partial_proof :
  forall E, std_ok E -> forall s o,
    (pass_romaji o = true ->
       (forall t, to_hiragana_with_opt E s o = Ok t -> to_hiragana_with_opt E t o = Ok t) /\
       (forall t, to_katakana_with_opt E s o = Ok t -> to_katakana_with_opt E t o = Ok t)) /\
    (pass_romaji o = false ->
       (forall t, to_hiragana_with_opt E s o = Ok t -> exists t',
          to_hiragana_with_opt E t o = Ok t' /\ to_hiragana_with_opt E t' o = Ok t' /\
          (t' = t <->
             (mixed_text s \/ all_nonempty S_romaji s \/ starts_with_punct s ->
                mode_of o = Ime \/ ~ reads_nyy_lowered (mode_of o) s) /\
             (~ mixed_text s -> (exists q r, s = q :: r /\ smart_quote q) ->
                forall c, In c s -> katakana_letter c -> In c (u "ヵヶ")))) /\
       (forall t, to_katakana_with_opt E s o = Ok t -> exists t',
          to_katakana_with_opt E t o = Ok t' /\ to_katakana_with_opt E t' o = Ok t' /\
          (t' = t <-> mode_of o = Ime \/ ~ (all_nonempty S_romaji s \/ mixed_text s) \/
             ~ reads_nyy_lowered (mode_of o) s))).
Proof.
  intros E HE s o. split.
  - intro P. split; intros t T.
    + apply hira_iff in T; [|exact HE]. subst t. apply hira_iff; [exact HE|]. unfold hira_pure. rewrite P. symmetry. apply k2h_k2h.
    + apply kata_iff in T; [|exact HE]. subst t. apply kata_iff; [exact HE|]. unfold kata_pure. rewrite P. symmetry. apply h2k_h2k.
  - intros P. split; intros t T.
    + apply hira_iff in T; [|exact HE]. subst t. exists (hira_pure E o (hira_pure E o s)).
      rewrite !hira_iff by exact HE. destruct (hira_all E HE o P s) as [Z1 Z2].
      split; [reflexivity|]. split; [now rewrite Z1|exact Z2].
    + apply kata_iff in T; [|exact HE]. subst t. exists (kata_pure E o (kata_pure E o s)).
      rewrite !kata_iff by exact HE. destruct (kata_all E HE o P s) as [Z1 Z2].
      split; [reflexivity|]. split; [now rewrite Z1|exact Z2].
Qed.

Lemma C64_idempotent_refuted_proof :
  forall E, std_ok E -> exists h h' k k' q q',
    to_hiragana E (u "nyya") = Ok h /\ to_hiragana E h = Ok h' /\ h' <> h /\
    to_katakana E (u "nyya") = Ok k /\ to_katakana E k = Ok k' /\ k' <> k /\
    to_hiragana E (u "‘カ") = Ok q /\ to_hiragana E q = Ok q' /\ q' <> q.
Proof.
  intros E HE. exists (u "nっや"), (u "んっや"), (u "nッヤ"), (u "ンッヤ"), (u "「カ"), (u "「か").
  assert (AC : forallb (forallb (fun c => (c <? 128) || caseless c))
     [u "nyya"; u "nっや"; u "nッヤ"; u "‘カ"; u "「カ"] = true) by (vm_compute; reflexivity).
  rewrite forallb_forall in AC.
  assert (L : forall s, In s [u "nyya"; u "nっや"; u "nッヤ"; u "‘カ"; u "「カ"] -> to_lowercase E s = low s).
  { intros s I. apply lower_low; [exact HE|]. specialize (AC s I). rewrite forallb_forall in AC.
    intros c J. specialize (AC c J). apply orb_prop in AC. rewrite N.ltb_lt in AC. exact AC. }
  assert (ND : forall s, In s [u "nyya"; u "nっや"; u "nッヤ"; u "‘カ"; u "「カ"] -> k2h E false s = map k2hc s).
  { intros s I. apply k2h_no_dash. intro J. revert s I J.
    enough (B : forallb (fun s => negb (existsb (N.eqb long_mark) s)) [u "nyya"; u "nっや"; u "nッヤ"; u "‘カ"; u "「カ"] = true).
    { intros s I J. rewrite forallb_forall in B. specialize (B s I). apply negb_true_iff in B.
      rewrite <- not_true_iff_false, existsb_exists in B. apply B. exists long_mark. split; [exact J|apply N.eqb_refl]. }
    vm_compute. reflexivity. }
  assert (HH : forall s t, In s [u "nyya"; u "nっや"; u "nッヤ"; u "‘カ"; u "「カ"] ->
     (if is_mixed s then conv Default (low (map k2hc s)) else
      if is_romaji s || first_punct s then conv Default (low s) else map k2hc s) = t ->
     to_hiragana E s = Ok t).
  { intros s t I <-. change (to_hiragana E s) with (to_hiragana_with_opt E s default_options).
    apply hira_iff; [exact HE|]. unfold hira_pure. change (pass_romaji default_options) with false. cbv iota.
    rewrite (ND s I), (L s I), k_tree_mode. change (mode_of default_options) with Default.
    destruct (is_mixed s); [|reflexivity]. rewrite lower_low; [reflexivity|exact HE|].
    rewrite <- (ND s I). apply ascii_k2h. specialize (AC s I). rewrite forallb_forall in AC.
    intros c J. specialize (AC c J). apply orb_prop in AC. rewrite N.ltb_lt in AC. exact AC. }
  assert (KK : forall s t, In s [u "nyya"; u "nっや"; u "nッヤ"; u "‘カ"; u "「カ"] ->
     (if is_romaji s || is_mixed s then h2k (conv Default (low s)) else h2k s) = t ->
     to_katakana E s = Ok t).
  { intros s t I <-. change (to_katakana E s) with (to_katakana_with_opt E s default_options).
    apply kata_iff; [exact HE|]. unfold kata_pure. change (pass_romaji default_options) with false. cbv iota.
    rewrite (L s I), k_tree_mode. reflexivity. }
  split; [apply HH; [cbn [In]; auto|vm_compute; reflexivity]|].
  split; [apply HH; [cbn [In]; auto|vm_compute; reflexivity]|]. split; [vm_compute; discriminate|].
  split; [apply KK; [cbn [In]; auto|vm_compute; reflexivity]|].
  split; [apply KK; [cbn [In]; auto|vm_compute; reflexivity]|]. split; [vm_compute; discriminate|].
  split; [apply HH; [cbn [In]; auto 7|vm_compute; reflexivity]|].
  split; [apply HH; [cbn [In]; auto 7|vm_compute; reflexivity]|]. vm_compute. discriminate.
Qed.
