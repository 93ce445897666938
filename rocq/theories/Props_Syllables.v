(** * C111: romanised kana can be read aloud

    [syllables] lists the Hepburn syllables with their doubled forms, the syllabic n and n' before vowels and y; [sounded] kana are
    the kana letters but for ゕ, ゖ, ヵ and ヶ, and the mark ー. *)
From Verif Require Import Base Std StdInstances Chars Strings Convert KanaSpec ScriptSpec SyllablesSpec Results_Syllables.

(** C111.  The romaji of every text of sounded kana, however unusual, falls into Hepburn syllables and dashes; with upcase_katakana so
    does its text in small letters. *)
Theorem C111_syllables :
  forall E, std_ok E -> forall o s t, Forall sounded s -> to_romaji_with_opt E s o = Ok t ->
    syllabic (map ascii_lower t) /\ (upcase_katakana o = false -> map ascii_lower t = t).
Proof. exact C111_syllables_proof. Qed.
Print Assumptions C111_syllables.

(** not a word: small kana, a lone ー and っ in odd places *)
Example C111_syllables_case :
  std_ok std_1_82 /\ Forall sounded (u "っちゃーんやっッぁカーょっっん")
  /\ to_romaji_with_opt std_1_82 (u "っちゃーんやっッぁカーょっっん") default_options = Ok (u "tcha-n'yaakaayon")
  /\ u "tcha-n'yaakaayon" = concat [u "tcha"; u "-"; u "n'ya"; u "a"; u "ka"; u "a"; u "yo"; u "n"]
  /\ forallb (fun w => existsb (str_eqb w) syllables) [u "tcha"; u "n'ya"; u "a"; u "ka"; u "yo"; u "n"] = true
  /\ existsb (fun w => existsb (str_eqb w) syllables) [u "cchi"; u "nna"; u "si"; u "tu"; u "k"; u "n'ka"; u "yi"; u "xa"] = false.
Proof.
  split; [exact std_1_82_ok|]. split; [|vm_compute; repeat split; reflexivity].
  apply C111_sounded. vm_compute. reflexivity.
Qed.

(** C111.  Every listed syllable is the romaji of some text of sounded kana, with all options and in every library, but for those that
    begin with v: which of these occur depends on the library (C70). *)
Theorem C111_each :
  forall E, std_ok E -> forall o w, In w syllables -> hd_error w <> Some (ch "v") ->
    exists s, Forall sounded s /\ to_romaji_with_opt E s o = Ok w.
Proof. exact C111_each_proof. Qed.
Print Assumptions C111_each.

(** the syllables of っぎぇ and んよ; ゔ is vo in this library *)
Example C111_each_case :
  std_ok std_1_82 /\ existsb (str_eqb (u "ggye")) syllables = true /\ existsb (str_eqb (u "n'yo")) syllables = true
  /\ hd_error (u "ggye") <> Some (ch "v")
  /\ to_romaji_with_opt std_1_82 (u "っぎぇ") default_options = Ok (u "ggye")
  /\ to_romaji_with_opt std_1_82 (u "んよ") default_options = Ok (u "n'yo")
  /\ to_romaji_with_opt std_1_82 (u "ゔ") default_options = Ok (u "vo").
Proof. split; [exact std_1_82_ok|]. split; [reflexivity|]. split; [reflexivity|]. split; [discriminate|]. vm_compute. repeat split. Qed.
