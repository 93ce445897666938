(** * C91, C92: converting a text to katakana and to hiragana in parts *)
From Verif Require Import Base Std StdInstances Convert KanaSpec KanaDict ScriptSpec ScriptProofs Predicates Strings KanaJoinSpec FixedSpec
  ScriptPartSpec ScriptParts Results_Split.

(** C91.  A text of any number of parts, none of them empty, is converted to katakana as its parts
    are, exactly under these conditions.  With pass_romaji always.  If the text is romaji or
    mixes romaji and kana, and is read as a whole: no letter gets another lower case at the end
    of a part (Σ), no key goes over the end of a part that is read, and no upper case letter
    and no key is in a part that is not read.  Otherwise: the parts of romaji are in lower case
    and have nothing to convert. *)
Theorem C91_katakana_in_parts :
  forall E, std_ok E -> forall o ts, Forall (fun t => t <> []) ts ->
    exists r rs, to_katakana_with_opt E (concat ts) o = Ok r /\
      Forall2 (fun t q => to_katakana_with_opt E t o = Ok q) ts rs /\
      (pass_romaji o = true -> r = concat rs) /\
      (pass_romaji o = false -> katakana_reads (concat ts) ->
         (r = concat rs <-> in_parts (mode_of o) (to_lowercase E) katakana_reads ts)) /\
      (pass_romaji o = false -> ~ katakana_reads (concat ts) ->
         (r = concat rs <->
          forall t, In t ts -> all_nonempty S_romaji t -> to_lowercase E t = t /\ untouched (mode_of o) t)).
Proof. exact C91_katakana_in_parts_proof. Qed.
Print Assumptions C91_katakana_in_parts.

Example C91_case :
  (* あ does not go with the n, and the n of 漢n stands before y *)
  to_katakana std_1_82 (u "かnあ") = Ok (u "カンア") /\ in_parts Default (to_lowercase std_1_82) katakana_reads [u "かn"; u "あ"]
  /\ to_katakana std_1_82 (u "漢nykか") = Ok (u "漢nykカ") /\ in_parts Default (to_lowercase std_1_82) katakana_reads [u "漢n"; u "ykか"]
  (* no: a key in 漢字ka, which is not read alone; Σ at the end of a part *)
  /\ to_katakana std_1_82 (u "漢字kaな") = Ok (u "漢字カナ") /\ ~ in_parts Default (to_lowercase std_1_82) katakana_reads [u "漢字ka"; u "な"]
  /\ to_katakana std_1_82 (u "かaΣb") = Ok (u "カアσb") /\ to_katakana std_1_82 (u "かaΣ") = Ok (u "カアς")
  /\ ~ in_parts Default (to_lowercase std_1_82) katakana_reads [u "かaΣ"; u "b"]
  (* a text that is not read *)
  /\ to_katakana std_1_82 (u "漢字ka") = Ok (u "漢字ka") /\ ~ katakana_reads (u "漢字ka") /\ all_nonempty S_romaji (u "ka").
Proof.
  assert (C91_holds : forall ts r rs, Forall (fun t => t <> []) ts -> katakana_reads (concat ts) ->
  to_katakana std_1_82 (concat ts) = Ok r -> Forall2 (fun t q => to_katakana std_1_82 t = Ok q) ts rs ->
  (r = concat rs <-> in_parts Default (to_lowercase std_1_82) katakana_reads ts)).
  { intros ts r rs F B Q Qs. destruct (C91_katakana_in_parts_proof std_1_82 std_1_82_ok default_options ts F) as (r' & rs' & Q' & F' & _ & X & _).
  specialize (X eq_refl B). unfold to_katakana in Q. rewrite Q in Q'. injection Q' as <-.
  assert (rs' = rs) as ->; [|exact X]. clear - Qs F'. revert rs' F'. induction Qs as [|t q ts rs H _ IH]; intros rs' F'; inversion F'; subst; [reflexivity|].
  f_equal; [unfold to_katakana in H; congruence|now apply IH]. }
  assert (M : forall s, is_mixed s = true -> katakana_reads s) by (intros s H; right; now apply mixed_spec).
  repeat match goal with |- _ /\ _ => split end.
  - vm_compute. reflexivity.
  - apply (C91_holds [u "かn"; u "あ"] (u "カンア") [u "カン"; u "ア"]); [repeat constructor; discriminate|apply M; vm_compute; reflexivity|vm_compute; reflexivity| |reflexivity].
    repeat constructor; vm_compute; reflexivity.
  - vm_compute. reflexivity.
  - apply (C91_holds [u "漢n"; u "ykか"] (u "漢nykカ") [u "漢n"; u "ykカ"]); [repeat constructor; discriminate|apply M; vm_compute; reflexivity|vm_compute; reflexivity| |reflexivity].
    repeat constructor; vm_compute; reflexivity.
  - vm_compute. reflexivity.
  - intro X. apply (C91_holds [u "漢字ka"; u "な"] (u "漢字カナ") [u "漢字ka"; u "ナ"]) in X; [discriminate X|repeat constructor; discriminate|apply M; vm_compute; reflexivity|vm_compute; reflexivity|].
    repeat constructor; vm_compute; reflexivity.
  - vm_compute. reflexivity.
  - vm_compute. reflexivity.
  - intro X. apply (C91_holds [u "かaΣ"; u "b"] (u "カアσb") [u "カアς"; u "b"]) in X; [discriminate X|repeat constructor; discriminate|apply M; vm_compute; reflexivity|vm_compute; reflexivity|].
    repeat constructor; vm_compute; reflexivity.
  - vm_compute. reflexivity.
  - intros [H|H]; [apply romaji_text_spec in H|apply mixed_spec in H]; vm_compute in H; discriminate H.
  - apply romaji_text_spec. vm_compute. reflexivity.
Qed.

(** C92.  The same for to_hiragana.  With pass_romaji: no long mark of a part lengthens a letter of
    an earlier one.  Text that mixes romaji and kana: moreover the parts that are read without
    being mixed have no katakana but ヵ ヶ, and the hiragana of the parts (with pass_romaji) has no
    key over a boundary, as in C91.  Romaji, or text with English punctuation in front: the
    parts that are not read have no katakana but ヵ ヶ, and no key goes over a boundary.
    Otherwise: no long mark goes back over a boundary, and the parts that are read alone are in
    lower case and have nothing to convert. *)
Theorem C92_hiragana_in_parts :
  forall E, std_ok E -> forall o ts, Forall (fun t => t <> []) ts ->
    exists r rs hs, to_hiragana_with_opt E (concat ts) o = Ok r /\
      Forall2 (fun t q => to_hiragana_with_opt E t o = Ok q) ts rs /\
      Forall2 (fun t h => to_hiragana_with_opt E t (passing o) = Ok h) ts hs /\
      (pass_romaji o = true -> (r = concat rs <-> marks_apart ts)) /\
      (pass_romaji o = false -> mixed_text (concat ts) ->
         (r = concat rs <->
          marks_apart ts /\
          (forall t c, In t ts -> ~ mixed_text t -> hiragana_reads t -> In c t -> katakana_letter c -> In c (u "ヵヶ")) /\
          in_parts (mode_of o) (to_lowercase E) (fun h => mixed_text h \/ hiragana_reads h) hs)) /\
      (pass_romaji o = false -> ~ mixed_text (concat ts) -> hiragana_reads (concat ts) ->
         (r = concat rs <->
          (forall t c, In t ts -> ~ hiragana_reads t -> In c t -> katakana_letter c -> In c (u "ヵヶ")) /\
          in_parts (mode_of o) (to_lowercase E) hiragana_reads ts)) /\
      (pass_romaji o = false -> ~ mixed_text (concat ts) -> ~ hiragana_reads (concat ts) ->
         (r = concat rs <->
          marks_apart ts /\
          forall t, In t ts -> hiragana_reads t -> to_lowercase E t = t /\ untouched (mode_of o) t)).
Proof. exact C92_hiragana_in_parts_proof. Qed.
Print Assumptions C92_hiragana_in_parts.

Example C92_case :
  (* the long mark goes back over the boundary *)
  to_hiragana std_1_82 (u "ラーメンwo") = Ok (u "らあめんを") /\ to_hiragana std_1_82 (u "ーメンwo") = Ok (u "ーめんを")
  /\ ~ marks_apart [u "ラ"; u "ーメンwo"] /\ marks_apart [u "ラー"; u "メンwo"]
  (* a text that is read, with katakana in a part that is not *)
  /\ to_hiragana std_1_82 (u "‘メン") = Ok (u "「メン") /\ to_hiragana std_1_82 (u "‘メ") = Ok (u "「メ") /\ to_hiragana std_1_82 (u "ン") = Ok (u "ん")
  /\ hiragana_reads (u "‘メン") /\ ~ mixed_text (u "‘メン") /\ ~ hiragana_reads (u "ン")
  (* a text that is not read, with a part that is *)
  /\ to_hiragana std_1_82 (u "あ‘カ") = Ok (u "あ‘か") /\ to_hiragana std_1_82 (u "‘カ") = Ok (u "「カ")
  /\ ~ hiragana_reads (u "あ‘カ") /\ ~ mixed_text (u "あ‘カ")
  (* a mixed text that can be converted in parts, and the hiragana of its parts *)
  /\ to_hiragana std_1_82 (u "カタカナnワyo漢字") = Ok (u "かたかなんわよ漢字")
  /\ mixed_text (u "カタカナnワyo漢字")
  /\ in_parts Default (to_lowercase std_1_82) (fun h => mixed_text h \/ hiragana_reads h) [u "かたかなn"; u "わyo"; u "漢字"].
Proof.
  assert (M : forall s, is_mixed s = false -> ~ mixed_text s) by (intros s H Z; apply mixed_spec in Z; congruence).
  assert (R : forall s, is_romaji s || first_punct s = false -> ~ hiragana_reads s).
  { intros s H [Z|Z]; [apply romaji_text_spec in Z|apply first_punct_spec in Z]; rewrite Z in H; [|rewrite orb_true_r in H]; discriminate H. }
  assert (X : forall ts r rs, Forall (fun t => t <> []) ts -> to_hiragana_with_opt std_1_82 (concat ts) (passing default_options) = Ok r ->
    Forall2 (fun t q => to_hiragana_with_opt std_1_82 t (passing default_options) = Ok q) ts rs -> (r = concat rs <-> marks_apart ts)).
  { intros ts r rs F Q Qs. destruct (C92_hiragana_in_parts_proof std_1_82 std_1_82_ok (passing default_options) ts F) as (r' & rs' & _ & Q' & F' & _ & X & _).
    specialize (X eq_refl). rewrite Q in Q'. injection Q' as <-. assert (rs' = rs) as ->; [|exact X]. clear - Qs F'. revert rs' F'.
    induction Qs as [|t q ts rs H _ IH]; intros rs' F'; inversion F'; subst; [reflexivity|]. f_equal; [congruence|now apply IH]. }
  split; [vm_compute; reflexivity|]. split; [vm_compute; reflexivity|]. split.
  { intro A. apply (X [u "ラ"; u "ーメンwo"] (u "らあめんwo") [u "ら"; u "ーめんwo"]) in A; [discriminate A|repeat constructor; discriminate|vm_compute; reflexivity|].
    repeat constructor; vm_compute; reflexivity. }
  split.
  { apply (X [u "ラー"; u "メンwo"] (u "らあめんwo") [u "らあ"; u "めんwo"]); [repeat constructor; discriminate|vm_compute; reflexivity| |reflexivity].
    repeat constructor; vm_compute; reflexivity. }
  do 3 (split; [vm_compute; reflexivity|]). split; [right; apply first_punct_spec; vm_compute; reflexivity|]. split; [apply M; vm_compute; reflexivity|].
  split; [apply R; vm_compute; reflexivity|]. do 2 (split; [vm_compute; reflexivity|]). split; [apply R; vm_compute; reflexivity|]. split; [apply M; vm_compute; reflexivity|].
  split; [vm_compute; reflexivity|]. split; [apply mixed_spec; vm_compute; reflexivity|].
  destruct (C92_hiragana_in_parts_proof std_1_82 std_1_82_ok default_options [u "カタカナn"; u "ワyo"; u "漢字"]) as (r & rs & hs & Q & F & Fh & _ & Z & _);
    [repeat constructor; discriminate|].
  repeat match goal with H : Forall2 _ (_ :: _) _ |- _ => inversion H; clear H; subst end.
  repeat match goal with H : Forall2 _ [] _ |- _ => inversion H; clear H; subst end.
  repeat match goal with H : _ = Ok _ |- _ => vm_compute in H; injection H as <- end.
  apply Z; [reflexivity|apply mixed_spec; vm_compute; reflexivity|reflexivity].
Qed.
