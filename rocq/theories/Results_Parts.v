(** * Proofs of the theorems of Props_Parts.v *)
From Coq Require Import Bool.
From Verif Require Import Tac Base Std StdInstances Convert KanaPure KanaSpec KanaDict KanaProofs ScriptSpec ScriptProofs RomajiPure RomajiSpec
  RomajiProofs TypingSpec Splits SameSpec SameRomaji
  Tokenize TokenSpec JoinSpec JoinText TokenJoin KanaJoinSpec KanaJoin KanaTokens Strings Predicates CompleteSpec Complete RomajiComplete JoinUpSpec JoinUp FixedSpec Fixed ScriptIdem ScriptTokenSpec ScriptTokens CompleteScript.

Lemma C65_to_kana_in_parts_proof :
  forall E, std_ok E -> forall o,
    (forall x y,
       (forall a b c y', x = a ++ b -> b <> [] -> y = c :: y' -> ~ viable (mode_of o) (b ++ [c])) ->
       exists rx ry, to_kana_with_opt E x o = Ok rx /\ to_kana_with_opt E y o = Ok ry /\
                     to_kana_with_opt E (x ++ y) o = Ok (rx ++ ry)) /\
    (forall x d d' y, lowers d d' -> ~ In d' (u "bcdfghjklmnpqrstvwxyz") ->
       (exists rx ry, to_kana_with_opt E (x ++ [d]) o = Ok rx /\ to_kana_with_opt E y o = Ok ry /\
                      to_kana_with_opt E ((x ++ [d]) ++ y) o = Ok (rx ++ ry)) /\
       (Forall ascii ((x ++ [d]) ++ y) ->
          (exists rx ry, to_hiragana_with_opt E (x ++ [d]) o = Ok rx /\ to_hiragana_with_opt E y o = Ok ry /\
                         to_hiragana_with_opt E ((x ++ [d]) ++ y) o = Ok (rx ++ ry)) /\
          (exists rx ry, to_katakana_with_opt E (x ++ [d]) o = Ok rx /\ to_katakana_with_opt E y o = Ok ry /\
                         to_katakana_with_opt E ((x ++ [d]) ++ y) o = Ok (rx ++ ry)))).
Proof.
  intros E HE o. split.
  - intros x y H. rewrite !to_kana_with_opt_eq by exact HE. rewrite k_tree_mode.
    do 2 eexists. split; [reflexivity|]. split; [reflexivity|]. f_equal. now apply conv_split.
  - intros x d d' y L N. apply lowers_lower in L. subst d'. split.
    + rewrite !to_kana_with_opt_eq by exact HE. rewrite k_tree_mode.
      do 2 eexists. split; [reflexivity|]. split; [reflexivity|]. f_equal. now apply conv_split_after.
    + intro A. pose proof A as A'. apply Forall_app in A'. destruct A' as [A1 A2].
      rewrite !to_hiragana_with_opt_eq, !to_katakana_with_opt_eq, !hira_ascii, !kata_ascii by assumption.
      split; (do 2 eexists; split; [reflexivity|]; split; [reflexivity|]; f_equal);
        destruct (pass_romaji o); try reflexivity.
      * now apply conv_low_split.
      * rewrite conv_low_split by exact N. apply map_app.
Qed.

Lemma C66_to_romaji_in_parts_proof :
  forall E, std_ok E -> forall o x c c' y,
    ~ In c (u "ー・ヵヶ") -> hiragana_for c c' ->
    (upcase_katakana o = true -> drops_no_mark x) ->
    (forall h, hiragana_text (u "お") [] x h ->
       forall a b v, h = a ++ b -> b <> [] -> ~ r_entry (b ++ [c']) v)
    \/ ((forall x0 d, x = x0 ++ [d] -> ~ In d (u "っッんンー")) /\ ~ In c' (u "ぃぇゃゅょ")) ->
    exists rx ry, to_romaji_with_opt E x o = Ok rx /\ to_romaji_with_opt E (c :: y) o = Ok ry /\
                  to_romaji_with_opt E (x ++ c :: y) o = Ok (rx ++ ry).
Proof.
  intros E HE o x c c' y N H D [S|[X C]].
  - exact (rom_split E o x c c' y HE N H S D).
  - exact (rom_split E o x c c' y HE N H (no_long_key x c' X C) D).
Qed.

Lemma C67_kana_that_can_be_typed_proof :
  forall E, std_ok E -> forall o s, Forall kana_char_or_mark s ->
    (exists r, Forall ascii r /\ to_kana_with_opt E r o = Ok s) <-> Forall (typeable_kana (mode_of o)) s.
Proof.
  intros E HE o s K. split.
  - intros (r & A & R). rewrite to_kana_with_opt_eq, k_tree_mode in R by exact HE. inversion R; subst.
    apply Forall_forall. intros c I. rewrite Forall_forall in K. exact (typed_only _ r c A I (K c I)).
  - intro T. destruct (type_text _ _ T) as (r & A & R). exists r. split; [exact A|].
    rewrite to_kana_with_opt_eq, k_tree_mode by exact HE. now rewrite R.
Qed.

Lemma C74_same_romaji_proof :
  forall E, std_ok E -> forall o s s' h h', upcase_katakana o = false ->
    hiragana_text (u "お") [] s h -> hiragana_text (u "お") [] s' h' -> standard_text h -> standard_text h' ->
    (to_romaji_with_opt E s o = to_romaji_with_opt E s' o <-> Forall2 alike h h').
Proof.
  intros E HE o s s' h h' Up. exact (same_romaji E o s s' h h' HE Up).
Qed.

Lemma C75_romaji_of_parts_proof :
  forall E, std_ok E -> forall o ts, Forall (fun t => t <> []) ts ->
    (upcase_katakana o = true -> forall pre t post, ts = pre ++ t :: post -> post <> [] -> drops_no_mark t) ->
    forall rv rtv, to_romaji_with_opt E (u "ゔ") o = Ok rv -> to_romaji_with_opt E (u "っゔ") o = Ok rtv ->
    exists r rs, to_romaji_with_opt E (concat ts) o = Ok r /\
      Forall2 (fun t q => to_romaji_with_opt E t o = Ok q) ts rs /\
      (r = concat rs <-> forall pre t post, ts = pre ++ t :: post ->
         ~ depends rv rtv (concat pre) t /\ (upcase_katakana o = true -> ~ mixes (concat pre) t)).
Proof.
  intros E HE o ts NE K rv rtv Rv Rtv. exact (parts_exact_all E o rv rtv ts HE K Rv Rtv NE).
Qed.

Lemma C76_token_by_token_partial_proof :
  forall E, std_ok E -> forall o s compact,
    forall rv rtv, to_romaji_with_opt E (u "ゔ") o = Ok rv -> to_romaji_with_opt E (u "っゔ") o = Ok rtv ->
    (exists r rs, to_romaji_with_opt E s o = Ok r /\
       Forall2 (fun t q => to_romaji_with_opt E t o = Ok q) (tokenize_with_opt s compact) rs /\
       (r = concat rs <-> no_long_mark s /\
          (compact = false -> forall pre t post, tokenize_with_opt s compact = pre ++ t :: post ->
             (forall hx ht, Forall2 hiragana_for (concat pre) hx -> Forall2 hiragana_for t ht -> ~ fuses rv rtv hx ht) /\
             (upcase_katakana o = true -> ~ mixes (concat pre) t)))) /\
    (no_long_mark s -> compact = true \/ scripts_apart s ->
       exists r rs, to_romaji_with_opt E s o = Ok r /\
         Forall2 (fun t q => to_romaji_with_opt E t o = Ok q) (tokenize_with_opt s compact) rs /\ r = concat rs).
Proof.
  intros E HE o s compact rv rtv Rv Rtv. split; [exact (tokens_exact_all E o rv rtv s compact HE Rv Rtv)|exact (tokens_apart_all E o s compact HE)].
Qed.

Lemma C76_token_by_token_refuted_proof :
  forall E, std_ok E -> exists s r rs, to_romaji E s = Ok r /\
    Forall2 (fun t q => to_romaji E t = Ok q) (tokenize s) rs /\ r <> concat rs.
Proof.
  intros E HE. exists (u "コーヒー"), (u "koohii"), [u "ko"; u "-"; u "hi"; u "-"].
  assert (forall s r, ~ In (ch "ヴ") s -> ~ In (ch "ゔ") s -> to_romaji std_1_82 s = Ok r -> to_romaji E s = Ok r) as T.
  { intros s r V V' Q. unfold to_romaji in *. rewrite to_romaji_with_opt_eq in * by (exact HE || exact std_1_82_ok).
    rewrite <- Q. f_equal. apply rom_indep; auto using std_1_82_ok. }
  assert (forall s r, existsb (fun c => (c =? ch "ヴ") || (c =? ch "ゔ")) s = false -> to_romaji std_1_82 s = Ok r -> to_romaji E s = Ok r) as T'.
  { intros s r V. apply T; intro I; apply not_true_iff_false in V; apply V; apply existsb_exists.
    - exists (ch "ヴ"). split; [exact I|reflexivity].
    - exists (ch "ゔ"). split; [exact I|reflexivity]. }
  split; [apply T'; vm_compute; reflexivity|]. split.
  - change (tokenize (u "コーヒー")) with [u "コ"; u "ー"; u "ヒ"; u "ー"].
    repeat constructor; apply T'; vm_compute; reflexivity.
  - vm_compute. discriminate.
Qed.

Lemma C77_kana_of_parts_proof :
  forall E, std_ok E -> forall o ts, Forall (fun t => t <> []) ts ->
    exists r rs, to_kana_with_opt E (concat ts) o = Ok r /\
      Forall2 (fun t q => to_kana_with_opt E t o = Ok q) ts rs /\
      (r = concat rs <-> forall pre t post, ts = pre ++ t :: post -> ~ joins (mode_of o) (concat pre) t).
Proof.
  intros E HE o ts. exact (kana_parts E o ts HE).
Qed.

Lemma C78_kana_token_by_token_proof :
  forall E, std_ok E -> forall o s compact,
    exists r rs, to_kana_with_opt E s o = Ok r /\
      Forall2 (fun t q => to_kana_with_opt E t o = Ok q) (tokenize_with_opt s compact) rs /\
      (r = concat rs <-> forall x d y, s = x ++ d :: y -> open_n (mode_of o) x ->
         d <> ch "'" /\ ~ (mode_of o = Ime /\ compact = false /\ d = ch " ")).
Proof.
  intros E HE o s compact. exact (kana_tokens E o s compact HE).
Qed.

Lemma C79_complete_conversion_proof :
  forall E, std_ok E -> forall o s,
    (exists r, to_kana_with_opt E s o = Ok r /\ (is_kana r = true <-> s <> [] /\ complete (mode_of o) s)) /\
    (exists h k, to_hiragana_with_opt E s o = Ok h /\ to_katakana_with_opt E s o = Ok k /\
       (is_katakana k = true <-> s <> [] /\ (Forall S_kana s \/
          (pass_romaji o = false /\ (Forall S_romaji s \/ mixed_text s) /\
           complete (mode_of o) (to_lowercase E s)))) /\
       (is_hiragana h = true <-> s <> [] /\ (forall c, In c s -> ~ In c (u "・ヵヶ")) /\ (Forall S_kana s \/
          (pass_romaji o = false /\ (Forall S_romaji s \/ mixed_text s \/ starts_with_punct s) /\
           complete (mode_of o) (to_lowercase E s) /\ ~ has_not_hiragana (to_lowercase E s)))) /\
       (Forall ascii s -> pass_romaji o = false ->
         (is_katakana k = true <-> s <> [] /\ complete (mode_of o) s) /\
         (is_hiragana h = true <-> s <> [] /\ complete (mode_of o) s /\ ~ has_not_hiragana s))).
Proof.
  intros E HE o s. split; [exact (complete_text E o s HE)|]. exists (hira_pure E o s), (kata_pure E o s).
  split; [now apply to_hiragana_with_opt_eq|]. split; [now apply to_katakana_with_opt_eq|].
  split; [exact (complete_katakana E o s HE)|]. split; [exact (complete_hiragana E o s HE)|].
  intros A P. destruct (complete_ascii E o s HE P A) as (h & k & Qh & Qk & X).
  rewrite to_hiragana_with_opt_eq in Qh by exact HE. rewrite to_katakana_with_opt_eq in Qk by exact HE. injection Qh as <-. injection Qk as <-. exact X.
Qed.

Lemma C80_complete_romanisation_proof :
  forall E, std_ok E -> forall o s,
    exists r, to_romaji_with_opt E s o = Ok r /\ (r = [] <-> only_tsu s) /\
      (is_romaji r = true <-> ~ only_tsu s /\ Forall readable s).
Proof.
  intros E HE o s. exact (romaji_complete E o s HE).
Qed.

Lemma C88_katakana_token_by_token_proof :
  forall E, std_ok E -> forall o s,
    exists r rs, to_katakana_with_opt E s o = Ok r /\
      Forall2 (fun t q => to_katakana_with_opt E t o = Ok q) (tokenize s) rs /\
      (pass_romaji o = true -> r = concat rs) /\
      (pass_romaji o = false -> all_nonempty S_romaji s \/ mixed_text s ->
         (r = concat rs <->
          n_apart (mode_of o) s /\ others_lower (to_lowercase E) s /\ forall c, In c s -> ~ smart_quote c)) /\
      (pass_romaji o = false -> ~ (all_nonempty S_romaji s \/ mixed_text s) ->
         (r = concat rs <->
          forall t, In t (tokenize s) -> Forall S_romaji t ->
            to_lowercase E t = t /\ untouched (mode_of o) t)).
Proof.
  intros E HE o s. exists (kata_pure E o s), (map (kata_pure E o) (tokenize s)).
  split; [now apply to_katakana_with_opt_eq|]. split.
  { apply Forall2_map_r. intro t. now apply to_katakana_with_opt_eq. }
  split; [|split].
  - intro P. unfold kata_pure. rewrite P. rewrite <- (tokens_concat s) at 1. unfold h2k. apply concat_map.
  - intro P. exact (kata_tokens_read E o HE P s).
  - intro P. exact (kata_tokens_kept E o HE P s).
Qed.

Lemma C89_hiragana_token_by_token_proof :
  forall E, std_ok E -> forall o s,
    exists r rs, to_hiragana_with_opt E s o = Ok r /\
      Forall2 (fun t q => to_hiragana_with_opt E t o = Ok q) (tokenize s) rs /\
      (pass_romaji o = true -> (r = concat rs <-> no_long_mark s)) /\
      (pass_romaji o = false -> mixed_text s ->
         (r = concat rs <-> no_long_mark s /\ n_apart (mode_of o) s /\ others_lower (to_lowercase E) s)) /\
      (pass_romaji o = false -> ~ mixed_text s -> all_nonempty S_romaji s \/ starts_with_punct s ->
         (r = concat rs <->
          n_apart (mode_of o) s /\ others_lower (to_lowercase E) s /\
          forall c, In c s -> katakana_letter c -> In c (u "ヵヶ"))) /\
      (pass_romaji o = false -> ~ mixed_text s -> ~ (all_nonempty S_romaji s \/ starts_with_punct s) ->
         (r = concat rs <->
          no_long_mark s /\
          forall t, In t (tokenize s) -> Forall S_romaji t \/ starts_with_punct t ->
            to_lowercase E t = t /\ untouched (mode_of o) t)).
Proof.
  intros E HE o s. exists (hira_pure E o s), (map (hira_pure E o) (tokenize s)).
  split; [now apply to_hiragana_with_opt_eq|]. split.
  { apply Forall2_map_r. intro t. now apply to_hiragana_with_opt_eq. }
  split; [|split; [|split]].
  - exact (hira_tokens_pass E o HE s).
  - intros P. exact (hira_tokens_mixed E o HE P s).
  - intros P M B. rewrite <- few_katakana. exact (hira_tokens_read E o HE P s M B).
  - intros P. exact (hira_tokens_kept E o HE P s).
Qed.
