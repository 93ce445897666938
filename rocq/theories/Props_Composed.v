(** * C108: text in composed form

    [in_composed_form s] says that no combining voicing mark of [s] could be joined to the kana before it, as in Unicode NFC. *)
From Verif Require Import Base Std StdInstances Chars Strings Convert Predicates KanaSpec ScriptSpec NormSpec ComposedSpec Results_Composed.

(** C108.  The result of to_kana is in composed form exactly if no mark of the text follows a part whose result ends in a kana it could
    be joined to. *)
Theorem C108_kana :
  forall E, std_ok E -> forall o s t, to_kana_with_opt E s o = Ok t ->
    (in_composed_form t <-> forall a v b p x, s = a ++ v :: b -> to_kana_with_opt E a o = Ok (p ++ [x]) -> ~ composes x v).
Proof. exact C108_kana_proof. Qed.
Print Assumptions C108_kana.

(** composed text can lose its form: the letters ka before a mark *)
Example C108_kana_case :
  std_ok std_1_82
  /\ to_kana_with_opt std_1_82 (u "ga" ++ [semivoicing]) default_options = Ok (u "が" ++ [semivoicing])
  /\ to_kana_with_opt std_1_82 (u "ka" ++ [voicing]) default_options = Ok (u "か" ++ [voicing])
  /\ composes (ch "か") voicing
  /\ to_kana_with_opt std_1_82 (u "ka") default_options = Ok ([] ++ [ch "か"]).
Proof. split; [exact std_1_82_ok|]. split; [vm_compute; reflexivity|]. split; [vm_compute; reflexivity|]. split; [|vm_compute; reflexivity]. exists (ch "が"). now left. Qed.

(** C108.  The same for katakana_to_hiragana, and for to_hiragana with pass_romaji. *)
Theorem C108_hiragana :
  forall E, std_ok E -> forall o s t, pass_romaji o = true -> to_hiragana_with_opt E s o = Ok t ->
    katakana_to_hiragana E s = Ok t
    /\ (in_composed_form t <-> forall a v b p x, s = a ++ v :: b -> katakana_to_hiragana E a = Ok (p ++ [x]) -> ~ composes x v).
Proof. exact C108_hiragana_proof. Qed.
Print Assumptions C108_hiragana.

(** the う written for a mark ー takes the combining mark; を has no voiced character *)
Example C108_hiragana_case :
  std_ok std_1_82
  /\ katakana_to_hiragana std_1_82 (u "コー" ++ [voicing]) = Ok (u "こう" ++ [voicing])
  /\ composes (ch "う") voicing
  /\ katakana_to_hiragana std_1_82 (u "コー") = Ok (u "こ" ++ [ch "う"])
  /\ katakana_to_hiragana std_1_82 (u "ヲ" ++ [voicing]) = Ok (u "を" ++ [voicing]).
Proof. split; [exact std_1_82_ok|]. split; [vm_compute; reflexivity|]. split; [exists (ch "ゔ"); vm_compute; tauto|]. vm_compute. repeat split. Qed.

(** C108.  hiragana_to_katakana gives text in composed form exactly for text in composed form in which わ, ゐ, ゑ and を carry no voicing
    mark: only their katakana have voiced characters. *)
Theorem C108_katakana :
  forall s t, hiragana_to_katakana s = Ok t ->
    (in_composed_form t <-> in_composed_form s /\ forall a b r, s = a ++ b :: voicing :: r -> ~ In b (u "わゐゑを")).
Proof. exact C108_katakana_proof. Qed.
Print Assumptions C108_katakana.

Example C108_katakana_case :
  hiragana_to_katakana (u "わ" ++ [voicing]) = Ok (u "ワ" ++ [voicing])
  /\ composes (ch "ワ") voicing
  /\ in_composed_form (u "わ" ++ [voicing])
  /\ hiragana_to_katakana (u "あ" ++ [voicing]) = Ok (u "ア" ++ [voicing]).
Proof.
  split; [reflexivity|]. split; [exists (ch "ヷ"); vm_compute; tauto|]. split; [|reflexivity].
  intros [|a0 [|a1 [|a2 a]]] b v r Q (c & C); try discriminate Q.
  injection Q as <- <- _. vm_compute in C. intuition discriminate.
Qed.

(** C108.  The result of to_romaji is in composed form exactly if no voicing mark follows an iteration mark ゝ or ヽ, directly or after
    a part that to_romaji drops altogether. *)
Theorem C108_romaji :
  forall E, std_ok E -> forall o s t, to_romaji_with_opt E s o = Ok t ->
    (in_composed_form t <-> forall a x w b, s = a ++ x :: w ++ voicing :: b -> In x (u "ゝヽ") -> to_romaji_with_opt E w o <> Ok []).
Proof. exact C108_romaji_proof. Qed.
Print Assumptions C108_romaji.

(** a lone っ is dropped, and brings the mark next to ゝ; か before a mark becomes ka *)
Example C108_romaji_case :
  std_ok std_1_82
  /\ to_romaji_with_opt std_1_82 (u "か" ++ [voicing]) default_options = Ok (u "ka" ++ [voicing])
  /\ to_romaji_with_opt std_1_82 (u "ゝか" ++ [voicing]) default_options = Ok (u "ゝka" ++ [voicing])
  /\ to_romaji_with_opt std_1_82 (u "ゝっ" ++ [voicing]) default_options = Ok (u "ゝ" ++ [voicing])
  /\ u "ゝっ" ++ [voicing] = [] ++ ch "ゝ" :: u "っ" ++ voicing :: []
  /\ to_romaji_with_opt std_1_82 (u "っ") default_options = Ok []
  /\ composes (ch "ゝ") voicing.
Proof.
  split; [exact std_1_82_ok|]. do 5 (split; [vm_compute; reflexivity|]). exists (ch "ゞ"). vm_compute. tauto.
Qed.
