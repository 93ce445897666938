(** * C94, C95: a change in a text changes its kana and its romaji only nearby *)
From Verif Require Import Base Std StdInstances Convert KanaSpec KanaDict ScriptSpec LocalSpec Results_Local.

(** C94.  Whatever stands between [x] and [y], the kana of the whole is that of [x] without at most 4
    characters, then that of these characters with the text in between and at most 4 characters of [y]
    (in IME mode after any number of n), then that of the rest of [y]. *)
Theorem C94_local :
  forall E, std_ok E -> forall o x y, exists q t run p r,
    x = q ++ t /\ (length t <= 4)%nat /\ y = run ++ p ++ r /\ (length p <= 4)%nat /\
    Forall n_letter run /\ (mode_of o <> Ime -> run = []) /\
    forall w, exists a b c, to_kana_with_opt E q o = Ok a /\ to_kana_with_opt E (t ++ w ++ run ++ p) o = Ok b /\
      to_kana_with_opt E r o = Ok c /\ to_kana_with_opt E (x ++ w ++ y) o = Ok (a ++ b ++ c).
Proof. exact C94_local_proof. Qed.
Print Assumptions C94_local.

(** the 4 characters cchy are needed before, the 4 characters chya after what is put in; in IME mode nnn *)
Example C94_case :
  to_kana std_1_82 (u "acchy" ++ u "a" ++ u "chyaka") = Ok (u "あ" ++ u "っちゃちゃ" ++ u "か")
  /\ to_kana std_1_82 (u "acchy" ++ u "c" ++ u "chyaka") = Ok (u "あ" ++ u "cchyっちゃ" ++ u "か")
  /\ to_kana std_1_82 (u "a") = Ok (u "あ") /\ to_kana std_1_82 (u "cchy" ++ u "a" ++ u "chya") = Ok (u "っちゃちゃ")
  /\ to_kana std_1_82 (u "ka") = Ok (u "か")
  /\ to_kana_with_opt std_1_82 (u "nnna") (Build_options false false false true) = Ok (u "んな")
  /\ to_kana_with_opt std_1_82 (u "n" ++ u "nnna") (Build_options false false false true) = Ok (u "んんあ").
Proof. repeat split; vm_compute; reflexivity. Qed.

(** C94, the numbers are the least ones, and in IME mode there is none for n. *)
Theorem C94_least :
  forall E, std_ok E -> forall o,
    (exists x, forall q t, x = q ++ t ->
       (forall w, exists a b, to_kana_with_opt E q o = Ok a /\ to_kana_with_opt E (t ++ w) o = Ok b /\
          to_kana_with_opt E (x ++ w) o = Ok (a ++ b)) -> (4 <= length t)%nat) /\
    (exists y, forall p r, y = p ++ r ->
       (forall w, exists b c, to_kana_with_opt E (w ++ p) o = Ok b /\ to_kana_with_opt E r o = Ok c /\
          to_kana_with_opt E (w ++ y) o = Ok (b ++ c)) -> (4 <= length p)%nat) /\
    (mode_of o = Ime -> forall n, exists y, forall p r, y = p ++ r ->
       (forall w, exists b c, to_kana_with_opt E (w ++ p) o = Ok b /\ to_kana_with_opt E r o = Ok c /\
          to_kana_with_opt E (w ++ y) o = Ok (b ++ c)) -> (n <= length p)%nat).
Proof. exact C94_least_proof. Qed.
Print Assumptions C94_least.

(** C94 does not hold of [to_katakana] and [to_hiragana] without pass_romaji: one character in front can decide whether
    the last ones are converted, however many stand in between. *)
Theorem C94_scripts_unbounded :
  forall E, std_ok E -> forall o, pass_romaji o = false ->
    (forall n, exists y, forall p r, y = p ++ r ->
       (forall w, exists b c, to_katakana_with_opt E (w ++ p) o = Ok b /\ to_katakana_with_opt E r o = Ok c /\
          to_katakana_with_opt E (w ++ y) o = Ok (b ++ c)) -> (n <= length p)%nat) /\
    (forall n, exists y, forall p r, y = p ++ r ->
       (forall w, exists b c, to_hiragana_with_opt E (w ++ p) o = Ok b /\ to_hiragana_with_opt E r o = Ok c /\
          to_hiragana_with_opt E (w ++ y) o = Ok (b ++ c)) -> (n <= length p)%nat).
Proof. exact C94_scripts_unbounded_proof. Qed.
Print Assumptions C94_scripts_unbounded.

Example C94_scripts_case :
  to_katakana std_1_82 (u "漢漢漢ka") = Ok (u "漢漢漢ka") /\ to_katakana std_1_82 (u "あ漢漢漢ka") = Ok (u "ア漢漢漢カ")
  /\ to_hiragana std_1_82 (u "漢漢漢ka") = Ok (u "漢漢漢ka") /\ to_hiragana std_1_82 (u "!漢漢漢ka") = Ok (u "！漢漢漢か").
Proof. repeat split; vm_compute; reflexivity. Qed.

(** C95.  The same for [to_romaji] without upcase_katakana: what changes is at most 3 characters before and 2 after,
    not counting the long marks and ・ ヵ ヶ, which a long mark reaches over. *)
Theorem C95_local_romaji :
  forall E, std_ok E -> forall o, upcase_katakana o = false -> forall x y, exists q t p r,
    x = q ++ t /\ (others t <= 3)%nat /\ y = p ++ r /\ (others p <= 2)%nat /\
    forall w, exists a b c, to_romaji_with_opt E q o = Ok a /\ to_romaji_with_opt E (t ++ w ++ p) o = Ok b /\
      to_romaji_with_opt E r o = Ok c /\ to_romaji_with_opt E (x ++ w ++ y) o = Ok (a ++ b ++ c).
Proof. exact C95_local_romaji_proof. Qed.
Print Assumptions C95_local_romaji.

(** ッキ before ャ; キャ after っ; marks without end.  With upcase_katakana one mark that disappears shifts
    the upper case in all the rest *)
Example C95_case :
  to_romaji std_1_82 (u "かッキ" ++ u "ャ" ++ u "ーー" ++ u "か") = Ok (u "ka" ++ u "kkyaaa" ++ u "ka")
  /\ to_romaji std_1_82 (u "かッキ" ++ u "" ++ u "ーー" ++ u "か") = Ok (u "ka" ++ u "kkiii" ++ u "ka")
  /\ to_romaji std_1_82 (u "か" ++ u "っ" ++ u "きゃか") = Ok (u "ka" ++ u "kkya" ++ u "ka")
  /\ others (u "ッキ") = 2%nat /\ others (u "・ーか") = 1%nat
  /\ to_romaji_with_opt std_1_82 (u "ッー" ++ u "アあアあアあ") (Build_options false false true false) = Ok (u "AAaAaA")
  /\ to_romaji_with_opt std_1_82 (u "ッ" ++ u "アあアあアあ") (Build_options false false true false) = Ok (u "AaAaAa").
Proof. repeat split; vm_compute; reflexivity. Qed.

(** C95, the numbers are the least ones, and there is none for the marks. *)
Theorem C95_least :
  forall E, std_ok E -> forall o, upcase_katakana o = false ->
    (exists x, forall q t, x = q ++ t ->
       (forall w, exists a b, to_romaji_with_opt E q o = Ok a /\ to_romaji_with_opt E (t ++ w) o = Ok b /\
          to_romaji_with_opt E (x ++ w) o = Ok (a ++ b)) -> (3 <= others t)%nat) /\
    (exists y, forall p r, y = p ++ r ->
       (forall w, exists b c, to_romaji_with_opt E (w ++ p) o = Ok b /\ to_romaji_with_opt E r o = Ok c /\
          to_romaji_with_opt E (w ++ y) o = Ok (b ++ c)) -> (2 <= others p)%nat) /\
    (forall n, exists x, forall q t, x = q ++ t ->
       (forall w, exists a b, to_romaji_with_opt E q o = Ok a /\ to_romaji_with_opt E (t ++ w) o = Ok b /\
          to_romaji_with_opt E (x ++ w) o = Ok (a ++ b)) -> (n <= length t)%nat) /\
    (forall n, exists y, forall p r, y = p ++ r ->
       (forall w, exists b c, to_romaji_with_opt E (w ++ p) o = Ok b /\ to_romaji_with_opt E r o = Ok c /\
          to_romaji_with_opt E (w ++ y) o = Ok (b ++ c)) -> (n <= length p)%nat).
Proof. exact C95_least_proof. Qed.
Print Assumptions C95_least.

(** C95 does not hold with upcase_katakana: a long mark that disappears shifts the upper case in all the rest of the
    text, so there is no bound on what changes after it, even without counting the marks. *)
Theorem C95_upper_unbounded :
  forall E, std_ok E -> forall o, upcase_katakana o = true -> forall n, exists y, forall p r, y = p ++ r ->
    (forall w, exists b c, to_romaji_with_opt E (w ++ p) o = Ok b /\ to_romaji_with_opt E r o = Ok c /\
       to_romaji_with_opt E (w ++ y) o = Ok (b ++ c)) -> (n <= others p)%nat.
Proof. exact C95_upper_unbounded_proof. Qed.
Print Assumptions C95_upper_unbounded.

Example C95_upper_case :
  to_romaji_with_opt std_1_82 (u "ッー漢" ++ u "アあアあ") (Build_options false false true false) = Ok (u "漢aAaA")
  /\ to_romaji_with_opt std_1_82 (u "ッ漢" ++ u "アあアあ") (Build_options false false true false) = Ok (u "漢AaAa")
  /\ to_romaji_with_opt std_1_82 (u "アあ") (Build_options false false true false) = Ok (u "Aa").
Proof. repeat split; vm_compute; reflexivity. Qed.
