(** * C112: romanised kana typed back

    Whether to_kana reads all of the romaji that to_romaji writes for kana.  For [sounded] see C111, for [only_tsu] C80; [tch_text] is in TypedBackSpec.v. *)
From Verif Require Import Base Std StdInstances Chars Strings Convert KanaSpec ScriptSpec CompleteSpec SyllablesSpec TypedBackSpec Results_Syllables Results_TypedBack.

(** C112.  The romaji of a text of sounded kana, with whatever options, becomes kana altogether outside of IME mode exactly if the text
    is not only of っ and has no っち, in either script: its romaji has tch, which to_kana does not know.  These are the texts with tch
    in their romaji. *)
Theorem C112_typed_back :
  forall E, std_ok E -> forall o o' s t r, Forall sounded s -> imemode o' = false \/ use_obsolete_kana o' = true ->
    to_romaji_with_opt E s o = Ok t -> to_kana_with_opt E t o' = Ok r ->
    (is_kana r = true <-> ~ only_tsu s /\ ~ tch_text s)
    /\ ((exists a b, map ascii_lower t = a ++ u "tch" ++ b) <-> tch_text s).
Proof. exact C112_typed_back_proof. Qed.
Print Assumptions C112_typed_back.

(** まっちゃ is not read back, カッパ is; the kana need not be the same ones; a mark ー after ッ is lost *)
Example C112_typed_back_case :
  let up := Build_options false false true false in
  std_ok std_1_82 /\ Forall sounded (u "まっちゃ") /\ Forall sounded (u "カッパんあゎー") /\ imemode default_options = false
  /\ to_romaji_with_opt std_1_82 (u "まっちゃ") up = Ok (u "matcha")
  /\ to_kana_with_opt std_1_82 (u "matcha") default_options = Ok (u "まtちゃ")
  /\ to_romaji_with_opt std_1_82 (u "カッパんあゎー") up = Ok (u "KAPPAn'awa-")
  /\ to_kana_with_opt std_1_82 (u "KAPPAn'awa-") default_options = Ok (u "カッパんあわー")
  /\ is_kana (u "カッパんあわー") = true
  /\ tch_text (u "まっちゃ") /\ tch_text (u "ッーち") /\ to_romaji_with_opt std_1_82 (u "ッーち") default_options = Ok (u "tchi")
  /\ to_romaji_with_opt std_1_82 (u "っーち") default_options = Ok (u "-chi").
Proof.
  split; [exact std_1_82_ok|]. split; [apply C111_sounded; reflexivity|]. split; [apply C111_sounded; reflexivity|].
  split; [reflexivity|]. split; [vm_compute; reflexivity|]. split; [vm_compute; reflexivity|]. split; [vm_compute; reflexivity|].
  split; [vm_compute; reflexivity|]. split; [vm_compute; reflexivity|].
  split; [exists (u "ま"), (ch "っ"), [], (ch "ち"), (u "ゃ"); split; [reflexivity|]; split; [now left|now left]|].
  split; [exists [], (ch "ッ"), (u "ー"), (ch "ち"), []; split; [reflexivity|]; split; [now left|right; split; [reflexivity|now repeat constructor]]|].
  split; vm_compute; reflexivity.
Qed.
