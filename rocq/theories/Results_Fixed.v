(** * Proofs of the theorems of Props_Fixed.v *)
From Coq Require Import Bool.
From Verif Require Import Tac Base Std Convert KanaPure KanaSpec KanaDict KanaProofs Predicates ScriptSpec ScriptProofs ScriptIdem RomajiPure RomajiSpec
  RomajiProofs MoraProofs LibraryProofs JoinSpec Joins TokenSpec FixedSpec Fixed Image ComposeSpec Compose RoundSpec Round RoundUp ScriptResultSpec ScriptImage Results_Kana Results_Romaji.

Lemma ok_same {A} (a b : A) : Ok a = Ok b <-> a = b.
Proof. split; [now intros [= ->]|now intros ->]. Qed.
Lemma no_katakana_spec s : no_katakana s <-> forall c, In c s -> katakana_letter c -> In c (u "ヵヶ").
Proof.
  unfold no_katakana. change (u "ヵヶ") with [0x30F5; 0x30F6]. split; intros H c I; specialize (H c I); unfold katakana_letter in *; cbn [In] in *; lia.
Qed.

Lemma C81_unchanged_proof :
  forall E, std_ok E -> forall o s,
    (to_kana_with_opt E s o = Ok s <-> untouched (mode_of o) s) /\
    (to_romaji_with_opt E s o = Ok s <-> forall c, In c s -> ~ romanised c) /\
    (pass_romaji o = true ->
       (to_hiragana_with_opt E s o = Ok s <-> forall c, In c s -> katakana_letter c -> In c (u "ヵヶ")) /\
       (to_katakana_with_opt E s o = Ok s <-> forall c, In c s -> ~ hiragana_letter c)) /\
    (pass_romaji o = false ->
       (to_hiragana_with_opt E s o = Ok s <->
          (forall c, In c s -> katakana_letter c -> In c (u "ヵヶ")) /\
          (mixed_text s \/ all_nonempty S_romaji s \/ starts_with_punct s ->
             to_lowercase E s = s /\ untouched (mode_of o) s)) /\
       (to_katakana_with_opt E s o = Ok s <->
          (forall c, In c s -> ~ hiragana_letter c) /\
          (all_nonempty S_romaji s \/ mixed_text s ->
             to_lowercase E s = s /\ untouched (mode_of o) s))).
Proof.
  intros E HE o s. split; [|split; [|split]].
  - rewrite to_kana_with_opt_eq by exact HE. rewrite ok_same, k_tree_mode. apply kana_fixed.
  - rewrite to_romaji_with_opt_eq by exact HE. rewrite ok_same. now apply romaji_fixed.
  - intro P. rewrite to_hiragana_with_opt_eq, to_katakana_with_opt_eq by exact HE. rewrite !ok_same. unfold hira_pure, kata_pure. rewrite P.
    split; [rewrite <- no_katakana_spec; now apply k2h_fixed|apply h2k_fixed].
  - intro P. rewrite to_hiragana_with_opt_eq, to_katakana_with_opt_eq by exact HE. rewrite !ok_same, <- no_katakana_spec.
    split; [now apply hira_fixed_exact|now apply kata_fixed_exact].
Qed.

Lemma C82_results_proof :
  forall E, std_ok E -> forall o t,
    ((exists s, to_kana_with_opt E s o = Ok t) <-> kana_result (mode_of o) t) /\
    ((exists s, to_romaji_with_opt E s o = Ok t) <-> forall c, In c t -> ~ romanised c).
Proof.
  intros E HE o t. split.
  - rewrite <- image_exact. split; intros [s H]; exists s; revert H; rewrite to_kana_with_opt_eq by exact HE; now rewrite ok_same, k_tree_mode.
  - rewrite <- (romaji_fixed E (upcase_katakana o) t HE). split.
    + intros [s H]. rewrite to_romaji_with_opt_eq in H by exact HE. apply (proj1 (ok_same _ _)) in H. subst t. now apply rom_idempotent.
    + intro H. exists t. rewrite to_romaji_with_opt_eq by exact HE. now rewrite ok_same.
Qed.

Lemma C83_one_after_another_proof :
  forall E, std_ok E -> forall o s, kana_only (pass_romaji o) s ->
    exists k h, to_katakana_with_opt E s o = Ok k /\ to_hiragana_with_opt E s o = Ok h /\
      (to_hiragana_with_opt E k o = Ok h <-> (forall c, In c s -> ~ In c (u "ゕゖ")) /\ ~ mark_after_hiragana s) /\
      (to_katakana_with_opt E h o = Ok k <-> (forall c, In c s -> ~ In c (u "ヷヸヹヺ")) /\ no_long_mark s) /\
      forall o', upcase_katakana o' = false ->
        exists r rv, to_romaji_with_opt E s o' = Ok r /\ to_romaji_with_opt E (u "ゔ") o' = Ok rv /\
          (to_romaji_with_opt E k o' = Ok r <-> (forall c, In c s -> ~ In c (u "ゕゖ")) /\ ~ mark_after_hiragana s) /\
          (to_romaji_with_opt E h o' = Ok r <-> ~ lengthens_o rv s).
Proof.
  intros E HE o s K. exists (h2k s), (k2h E false s). rewrite !to_katakana_with_opt_eq, !to_hiragana_with_opt_eq by exact HE. rewrite !ok_same.
  destruct (kana_only_pure E o s K) as [H1 H2]. split; [exact H2|]. split; [exact H1|].
  split; [rewrite (proj1 (kana_only_pure E o _ (kana_only_katakana _ _ K))); now apply hiragana_by_katakana|].
  split; [rewrite (proj2 (kana_only_pure E o _ (kana_only_hiragana E false _ _ K))); now apply katakana_by_hiragana|].
  intros o' U.
  assert (Rom : forall t, to_romaji_with_opt E t o' = Ok (R E (k2h E true t))).
  { intro t. rewrite to_romaji_with_opt_eq, U by exact HE. f_equal. unfold R. now apply rconv_noup. }
  exists (R E (k2h E true s)), (R E [vu]). rewrite !Rom, !ok_same. split; [reflexivity|]. split; [reflexivity|].
  split; [now apply romaji_by_katakana|now apply romaji_by_hiragana].
Qed.

Lemma C84_there_and_back_proof :
  forall E, std_ok E -> forall o o' rv rtv s, upcase_katakana o' = false ->
    to_romaji_with_opt E (u "ゔ") o' = Ok rv -> to_romaji_with_opt E (u "っゔ") o' = Ok rtv ->
    exists t, to_kana_with_opt E s o = Ok t /\
      (to_romaji_with_opt E t o' = Ok s <-> survives (mode_of o) rv rtv s).
Proof.
  intros E HE o o' rv rtv s Up Rv Rtv. exact (round_trip E o o' rv rtv s HE Up Rv Rtv).
Qed.

Lemma C86_each_other_proof :
  forall E, std_ok E -> forall o o' rv rtv, upcase_katakana o' = false ->
    to_romaji_with_opt E (u "ゔ") o' = Ok rv -> to_romaji_with_opt E (u "っゔ") o' = Ok rtv ->
    (forall s t, to_romaji_with_opt E s o' = Ok t /\ to_kana_with_opt E t o = Ok s <-> spells (mode_of o) rv rtv s t) /\
    (forall s, exists t, to_romaji_with_opt E s o' = Ok t /\
       (to_kana_with_opt E t o = Ok s <-> exists t', spells (mode_of o) rv rtv s t')).
Proof.
  intros E HE o o' rv rtv Up Rv Rtv.
  assert (X : forall s t, to_romaji_with_opt E s o' = Ok t /\ to_kana_with_opt E t o = Ok s <-> spells (mode_of o) rv rtv s t)
    by (intros s t; exact (each_other E o o' rv rtv s t HE Up Rv Rtv)).
  split; [exact X|]. intro s. eexists. split; [apply (to_romaji_with_opt_eq E o' s HE)|]. split.
  - intro K. eexists. apply X. split; [apply (to_romaji_with_opt_eq E o' s HE)|exact K].
  - intros (t' & S). apply X in S. destruct S as [A B]. rewrite (to_romaji_with_opt_eq E o' s HE) in A. injection A as ->. exact B.
Qed.

Lemma C87_upper_proof :
  forall E, std_ok E -> forall o o' rv rtv, upcase_katakana o' = true ->
    to_romaji_with_opt E (u "ゔ") o' = Ok rv -> to_romaji_with_opt E (u "っゔ") o' = Ok rtv ->
    (forall s t, to_romaji_with_opt E s o' = Ok t /\ to_kana_with_opt E t o = Ok s <->
       spells_up (mode_of o) rv rtv s t /\ no_long_mark s) /\
    (forall s, exists t, to_romaji_with_opt E s o' = Ok t /\
       (to_kana_with_opt E t o = Ok s <-> exists t', spells_up (mode_of o) rv rtv s t' /\ no_long_mark s)) /\
    (forall t, exists s, to_kana_with_opt E t o = Ok s /\
       (to_romaji_with_opt E s o' = Ok t <-> exists s', spells_up (mode_of o) rv rtv s' t /\ no_long_mark s')).
Proof.
  intros E HE o o' rv rtv Up Rv Rtv.
  assert (X : forall s t, to_romaji_with_opt E s o' = Ok t /\ to_kana_with_opt E t o = Ok s <-> spells_up (mode_of o) rv rtv s t /\ no_long_mark s)
    by (intros s t; exact (each_other_up E o o' rv rtv s t HE Up Rv Rtv)).
  split; [exact X|]. split.
  - intro s. eexists. split; [apply (to_romaji_with_opt_eq E o' s HE)|]. split.
    + intro K. eexists. apply X. split; [apply (to_romaji_with_opt_eq E o' s HE)|exact K].
    + intros (t' & S). apply X in S. destruct S as [A B]. rewrite (to_romaji_with_opt_eq E o' s HE) in A. injection A as ->. exact B.
  - intro t. eexists. split; [apply (to_kana_with_opt_eq E o t HE)|]. split.
    + intro K. eexists. apply X. split; [exact K|apply (to_kana_with_opt_eq E o t HE)].
    + intros (s' & S). apply X in S. destruct S as [A B]. rewrite (to_kana_with_opt_eq E o t HE) in B. injection B as ->. exact A.
Qed.

Lemma C93_script_results_proof :
  forall E, std_ok E -> forall o t,
    (pass_romaji o = true ->
       ((exists s, to_katakana_with_opt E s o = Ok t) <-> forall c, In c t -> ~ hiragana_letter c) /\
       ((exists s, to_hiragana_with_opt E s o = Ok t) <-> forall c, In c t -> katakana_letter c -> In c (u "ヵヶ"))) /\
    (pass_romaji o = false ->
       ((exists s, to_katakana_with_opt E s o = Ok t) <->
          (forall c, In c t -> ~ hiragana_letter c) /\
          (all_nonempty S_romaji t \/ mixed_text t -> to_lowercase E t = t /\ read_result (mode_of o) from_romaji t)) /\
       ((forall c, In c t -> katakana_letter c -> In c (u "ヵヶ")) ->
          ((exists s, to_hiragana_with_opt E s o = Ok t) <->
             (mixed_text t \/ all_nonempty S_romaji t \/ starts_with_punct t ->
                to_lowercase E t = t /\ read_result (mode_of o) from_hiragana t))) /\
       ((exists c, In c t /\ katakana_letter c /\ ~ In c (u "ヵヶ")) ->
          ((exists s, ascii_or_caseless s /\ to_hiragana_with_opt E s o = Ok t) <->
             (exists q r, t = q :: r /\ In q (u "「」『』")) /\ forall c, In c t -> caseless c = true /\ ~ smart_quote c))).
Proof.
  intros E HE o t.
  assert (K : forall s, to_katakana_with_opt E s o = Ok t <-> kata_pure E o s = t) by (intro s; rewrite to_katakana_with_opt_eq by exact HE; apply ok_same).
  assert (H : forall s, to_hiragana_with_opt E s o = Ok t <-> hira_pure E o s = t) by (intro s; rewrite to_hiragana_with_opt_eq by exact HE; apply ok_same).
  split; intro P.
  - split.
    + split.
      * intros [s Q]. apply K in Q. subst t. unfold kata_pure. rewrite P. intro c. apply h2k_no_hiragana.
      * intro N. exists t. apply K. unfold kata_pure. rewrite P. now apply h2k_fixed.
    + rewrite <- no_katakana_spec. split.
      * intros [s Q]. apply H in Q. subst t. unfold hira_pure. rewrite P. intro c. apply k2h_not_katakana.
      * intro N. exists t. apply H. unfold hira_pure. rewrite P. now apply k2h_fixed.
  - split; [|split].
    + split.
      * intros [s Q]. apply K in Q. subst t. exact (kata_necessary E HE o P s).
      * intros [N R]. destruct (kata_sufficient E HE o P t N R) as (s & Q). exists s. now apply K.
    + rewrite <- no_katakana_spec. intro N. split.
      * intros [s Q]. apply H in Q. subst t. exact (hira_necessary E HE o P s).
      * intro R. destruct (hira_sufficient E HE o P t N R) as (s & Q). exists s. now apply H.
    + intro C. rewrite <- (hira_katakana_image E HE o P t C). split; intros (s & A & Q); exists s; (split; [exact A|]); now apply H.
Qed.
