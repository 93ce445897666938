(** * C90: the work done by the conversions

    [to_kana_count] and the others (Cost.v) are the functions of the model with counters: the calls
    of [find_transition_node], and for [to_romaji] and [to_hiragana] also the characters that
    [chars().nth] walks over. *)
From Verif Require Import Base Std StdInstances Convert KanaPure KanaSpec Predicates ScriptSpec JoinSpec Cost CostSpec CostProofs Results_Work.

(** C90.  The number of calls of [find_transition_node] is linear in the length of the text: from one
    to three and a half for each character in [to_kana], from one to three in [to_romaji], at most
    four and a half in [to_hiragana] and three and a half in [to_katakana].  (For the latter two the
    text has to have no characters that lower-casing makes longer.) *)
Theorem C90_lookups :
  forall E, std_ok E -> forall o s,
    (exists r l, to_kana_with_opt E s o = Ok r /\ to_kana_count E s o = Ok (r, l) /\
       (length s <= l /\ 2 * l <= 7 * length s)%nat) /\
    (exists r l p, to_romaji_with_opt E s o = Ok r /\ to_romaji_count E s o = Ok (r, l, p) /\
       (length s <= l <= 3 * length s)%nat) /\
    (exists r l p, to_hiragana_with_opt E s o = Ok r /\ to_hiragana_count E s o = Ok (r, l, p) /\
       (ascii_or_caseless s -> (2 * l <= 9 * length s)%nat)) /\
    (exists r l, to_katakana_with_opt E s o = Ok r /\ to_katakana_count E s o = Ok (r, l) /\
       (ascii_or_caseless s -> (2 * l <= 7 * length s)%nat)).
Proof. exact C90_lookups_proof. Qed.
Print Assumptions C90_lookups.

Example C90_case : to_kana_count std_1_82 (u "cchyuu") default_options = Ok (u "っちゅう", 7%nat)
  /\ to_kana_count std_1_82 (u "cchykk") default_options = Ok (u "cchykk", 17%nat)
  /\ to_romaji_count std_1_82 (u "キャッーチー") default_options = Ok (u "kyatchii", 9%nat, 8%nat)
  /\ to_hiragana_count std_1_82 (u "コーヒー KOOHII") default_options = Ok (u "こうひい こおひい", 16%nat, 4%nat)
  /\ to_katakana_count std_1_82 (u "matcha") default_options = Ok (u "マtチャ", 8%nat).
Proof. repeat split; vm_compute; reflexivity. Qed.

(** C90.  [chars().nth] in [katakana_to_hiragana] walks, for every long mark that lengthens a letter,
    over as many characters as stand before it: less than half the square of the length of the
    text, and none exactly if no long mark lengthens a letter.  [to_hiragana] does the same, or nothing
    where it takes the text for romaji because of punctuation in front. *)
Theorem C90_passed :
  forall E, std_ok E -> forall o s, exists n p, lengthening [] s n p /\
    (2 * p <= length s * (length s - 1))%nat /\
    (p = 0%nat <-> no_long_mark s) /\
    (exists r l, to_romaji_count E s o = Ok (r, l, p)) /\
    (exists r l q, to_hiragana_count E s o = Ok (r, l, q) /\
       (q = p \/ (q = 0%nat /\ pass_romaji o = false /\ ~ mixed_text s /\ starts_with_punct s))).
Proof. exact C90_passed_proof. Qed.
Print Assumptions C90_passed.

Example C90_passed_case : to_hiragana_count std_1_82 (u "“コーヒー") default_options = Ok (u "『コーヒー", 6%nat, 0%nat)
  /\ to_romaji_count std_1_82 (u "“コーヒー") default_options = Ok (u "“koohii", 10%nat, 6%nat).
Proof. split; vm_compute; reflexivity. Qed.

(** C90.  These bounds are reached: cchy m + 1 times takes 14 m + 10 lookups for 4 m + 4 characters, and
    after a letter and m long marks m (m + 1) / 2 characters have been walked over, in [to_romaji]
    and in [to_hiragana]. *)
Theorem C90_worst :
  forall E, std_ok E -> forall o m,
    (exists r, to_kana_count E (concat (repeat (u "cchy") (S m))) o = Ok (r, (14 * m + 10)%nat)) /\
    forall k, katakana_letter k -> ~ In k (u "ヵヶ") -> exists r r' l l' p,
      to_romaji_count E (k :: repeat long_mark m) o = Ok (r, l, p) /\
      to_hiragana_count E (k :: repeat long_mark m) o = Ok (r', l', p) /\
      (2 * p = m * (m + 1))%nat.
Proof. exact C90_worst_proof. Qed.
Print Assumptions C90_worst.

Example C90_worst_case : to_romaji_count std_1_82 (u "アーーーーー") default_options = Ok (u "aaaaaa", 16%nat, 15%nat).
Proof. vm_compute. reflexivity. Qed.
