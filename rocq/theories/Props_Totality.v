(** * C01-C04: no panics, no endless loops

    [Ok t] is a normal return, [Panic] a panic, [NoFuel] a loop that did not end
    within the iterations granted to it: one per input character plus the final
    test. *)
From Verif Require Import Base Std StdInstances Strings Convert Tokenize Chunk Results_Totality.

(** C01.  [to_kana] returns, for every text and all options. *)
Theorem C01_to_kana_total :
  forall E, std_ok E -> forall s,
    (forall o, exists t, to_kana_with_opt E s o = Ok t) /\
    (exists t, to_kana E s = Ok t) /\
    to_kana E s = to_kana_with_opt E s default_options.
Proof. exact C01_to_kana_total_proof. Qed.
Print Assumptions C01_to_kana_total.

Example C01_case : std_ok std_1_82 /\ std_ok std_1_52
  /\ to_kana std_1_82 (u "shatei") = Ok (u "しゃてい").
Proof. split; [exact std_1_82_ok|]. split; [exact std_1_52_ok|]. vm_compute. reflexivity. Qed.

(** C02.  [to_hiragana] and [to_katakana] return, for every text and all options. *)
Theorem C02_script_conversions_total :
  forall E, std_ok E -> forall s,
    (forall o, exists t, to_hiragana_with_opt E s o = Ok t) /\
    (forall o, exists t, to_katakana_with_opt E s o = Ok t) /\
    to_hiragana E s = to_hiragana_with_opt E s default_options /\
    to_katakana E s = to_katakana_with_opt E s default_options.
Proof. exact C02_script_conversions_total_proof. Qed.
Print Assumptions C02_script_conversions_total.

Example C02_case : to_hiragana std_1_82 (u "#22 ２２漢字、toukyou, オオサカ") = Ok (u "#22 ２２漢字、とうきょう、 おおさか")
  /\ to_katakana std_1_82 (u "toukyou おおさか") = Ok (u "トウキョウ オオサカ").
Proof. vm_compute. auto. Qed.

(** C03.  [to_romaji] returns, for every text and all options; the slice of the original
    text at positions of the converted text is in bounds. *)
Theorem C03_to_romaji_total :
  forall E, std_ok E -> forall s,
    (forall o, exists t, to_romaji_with_opt E s o = Ok t) /\
    to_romaji E s = to_romaji_with_opt E s default_options.
Proof. exact C03_to_romaji_total_proof. Qed.
Print Assumptions C03_to_romaji_total.

(** the input of issue 13 and one where marks disappear *)
Example C03_case : to_romaji std_1_82 (u "ラーメン") = Ok (u "raamen")
  /\ to_romaji std_1_82 (u "ンーーーアーー") = Ok (u "n'aaa").
Proof. vm_compute. auto. Qed.

(** C04.  [trim_okurigana] returns for all arguments.  [get_chunk] panics exactly when
    start is a character position and end lies before it. *)
Theorem C04_trim_and_chunk :
  (forall s b m, exists r, trim_okurigana_with_opt s b m = Ok r) /\
  (forall s, trim_okurigana s = trim_okurigana_with_opt s false None) /\
  (forall s start stop, get_chunk s start stop = Panic <-> (stop < start < length s)%nat) /\
  (forall s start stop, ~ (stop < start < length s)%nat -> exists r, get_chunk s start stop = Ok r).
Proof. exact C04_trim_and_chunk_proof. Qed.
Print Assumptions C04_trim_and_chunk.

Example C04_case : get_chunk (u "derp") 3 1 = Panic /\ get_chunk (u "de") 3 1 = Ok (encode (u "d"))
  /\ trim_okurigana (u "踏み込む") = Ok (u "踏み込").
Proof. vm_compute. auto. Qed.
