(** * C104: the fewest keystrokes for a kana text *)
From Coq Require Import PeanoNat.
From Verif Require Import Base Std StdInstances Chars Trees Convert KanaSpec KanaDict TypingSpec StrokeSpec Results_Strokes.

(** C104.  Every text of kana that can be typed, and of the characters that stand for ASCII punctuation, can be typed in ASCII
    with [strokes] keys and not with fewer. *)
Theorem C104_fewest :
  forall E, std_ok E -> forall o r, Forall (typeable (mode_of o)) r ->
    (exists s, Forall ascii s /\ to_kana_with_opt E s o = Ok r /\ length s = strokes (mode_of o) r)
    /\ (forall s, Forall ascii s -> to_kana_with_opt E s o = Ok r -> (strokes (mode_of o) r <= length s)%nat).
Proof. exact C104_fewest_proof. Qed.
Print Assumptions C104_fewest.

Example C104_fewest_case :
  Forall (typeable Default) (u "しんよう") /\ strokes Default (u "しんよう") = 7%nat
  /\ to_kana_with_opt std_1_82 (u "sinnyou") default_options = Ok (u "しんにょう")
  /\ to_kana_with_opt std_1_82 (u "sin'you") default_options = Ok (u "しんよう")
  /\ strokes Default (u "きっと") = 5%nat /\ strokes Default (u "まっちゃ") = 6%nat /\ strokes Default (u "コーヒー！") = 7%nat
  /\ strokes Default (u "うぃ") = 2%nat /\ strokes Obsolete (u "うぃ") = 3%nat /\ strokes Obsolete (u "っうぃ") = 3%nat
  /\ strokes Default (u "ほん") = 3%nat /\ strokes Ime (u "ほん") = 4%nat.
Proof.
  split; [|vm_compute; auto 14].
  apply Forall_forall. intros c H. left. left. change (u "しんよう") with [0x3057; 0x3093; 0x3088; 0x3046] in H.
  repeat destruct H as [<-|H]; try contradiction; (split; [split; vm_compute; discriminate|]); split; intro J; vm_compute in J; intuition discriminate.
Qed.

(** C104.  Hiragana is typed with as many keys with [to_hiragana], the katakana for it with [to_katakana]. *)
Theorem C104_scripts :
  forall E, std_ok E -> forall o r, pass_romaji o = false ->
    Forall (typeable (mode_of o)) r -> Forall (fun c => ~ (ch "ァ" <= c <= ch "ヴ")) r ->
    ((exists s, Forall ascii s /\ to_hiragana_with_opt E s o = Ok r /\ length s = strokes (mode_of o) r)
     /\ (forall s, Forall ascii s -> to_hiragana_with_opt E s o = Ok r -> (strokes (mode_of o) r <= length s)%nat))
    /\ forall t, Forall2 katakana_for r t ->
      (exists s, Forall ascii s /\ to_katakana_with_opt E s o = Ok t /\ length s = strokes (mode_of o) r)
      /\ (forall s, Forall ascii s -> to_katakana_with_opt E s o = Ok t -> (strokes (mode_of o) r <= length s)%nat).
Proof. exact C104_scripts_proof. Qed.
Print Assumptions C104_scripts.

Example C104_scripts_case :
  to_hiragana_with_opt std_1_82 (u "KYOUTO") default_options = Ok (u "きょうと") /\ strokes Default (u "きょうと") = 6%nat
  /\ to_katakana_with_opt std_1_82 (u "kyouto") default_options = Ok (u "キョウト")
  /\ to_katakana_with_opt std_1_82 (u "rondon") default_options = Ok (u "ロンドン") /\ strokes Default (u "ろんどん") = 6%nat.
Proof. vm_compute. auto 6. Qed.

(** C104.  This is at least the length of the text and at most three times as long; both for texts of every length. *)
Theorem C104_bounds :
  forall m r, Forall (typeable m) r ->
    (length r <= strokes m r <= 3 * length r)%nat
    /\ strokes m (repeat (ch "あ") (length r)) = length r
    /\ strokes m (repeat (ch "ゃ") (length r)) = (3 * length r)%nat.
Proof. exact C104_bounds_proof. Qed.
Print Assumptions C104_bounds.

Example C104_bounds_case : strokes Default (u "っうぃ") = 3%nat /\ strokes Default (u "ああ") = 2%nat /\ strokes Default (u "ゃっゎ") = 9%nat.
Proof. vm_compute. auto. Qed.
