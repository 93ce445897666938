(** * C102: how many texts have the same result *)
From Coq Require Import PeanoNat.
From Verif Require Import Base Std StdInstances Chars Trees Convert Predicates TokenSpec Results_Ways.

(** C102.  For every text there are only finitely many texts [to_kana] turns into it, at most 45 to the power of its
    length, and that many exactly if it consists of small tsu only (which has 44 spellings besides itself). *)
Theorem C102_kana :
  forall E, std_ok E -> forall o r,
    exists l, NoDup l /\ (forall s, In s l <-> to_kana_with_opt E s o = Ok r)
      /\ (length l <= 45 ^ length r)%nat
      /\ (length l = (45 ^ length r)%nat <-> r = repeat (ch "っ") (length r)).
Proof. exact C102_kana_proof. Qed.
Print Assumptions C102_kana.

Example C102_kana_case :
  Forall (fun s => to_kana_with_opt std_1_82 s default_options = Ok (u "っっ"))
    [u "っっ"; u "xtsuっ"; u "っlTU"; u "XtsULtu"; u "xtuxtSU"]
  /\ to_kana_with_opt std_1_82 (u "XTSU") default_options = Ok (u "ッ")
  /\ u "っっ" = repeat (ch "っ") 2 /\ u "っか" <> repeat (ch "っ") 2
  /\ Forall (fun s => to_kana_with_opt std_1_82 s default_options = Ok (u "っか"))
    [u "っか"; u "kka"; u "xtsuca"; u "っKa"; u "cca"].
Proof.
  split; [repeat constructor|]. split; [reflexivity|]. split; [reflexivity|]. split; [discriminate|]. repeat constructor.
Qed.

(** C102.  For [to_romaji] there are none or infinitely many: any number of small tsu may be added at the end. *)
Theorem C102_romaji :
  forall E, std_ok E -> forall o s n,
    to_romaji_with_opt E (s ++ repeat (ch "っ") n) o = to_romaji_with_opt E s o.
Proof. exact C102_romaji_proof. Qed.
Print Assumptions C102_romaji.

Example C102_romaji_case :
  to_romaji_with_opt std_1_82 (u "あっっっ") default_options = Ok (u "a")
  /\ to_romaji_with_opt std_1_82 (u "あッ") default_options = Ok (u "a")
  /\ to_romaji_with_opt std_1_82 (u "あっっっか") default_options = Ok (u "akka").
Proof. vm_compute. auto. Qed.

(** C102.  [to_hiragana] loses all long marks after a final ン: any number of them may be added. *)
Theorem C102_hiragana :
  forall E, std_ok E -> forall o s n, Forall S_kana s \/ pass_romaji o = true ->
    to_hiragana_with_opt E (s ++ ch "ン" :: repeat (ch "ー") n) o = to_hiragana_with_opt E (s ++ [ch "ン"]) o.
Proof. exact C102_hiragana_proof. Qed.
Print Assumptions C102_hiragana.

Example C102_hiragana_case :
  Forall S_kana (u "パ") /\ to_hiragana_with_opt std_1_82 (u "パンーーー") default_options = Ok (u "ぱん")
  /\ to_hiragana_with_opt std_1_82 (u "パン") default_options = Ok (u "ぱん")
  /\ to_hiragana_with_opt std_1_82 (u "ぱんーーー") default_options = Ok (u "ぱんーーー")
  /\ to_hiragana_with_opt std_1_82 (u "パーー") default_options = Ok (u "ぱああ").
Proof.
  split; [constructor; [right; split; discriminate|constructor]|]. vm_compute. auto.
Qed.

(** C102.  [to_katakana] with [pass_romaji]: a text is a result unless it contains a hiragana letter, and then of at most
    2 to the power of its length texts, of that many exactly if it consists of katakana letters (to ヶ) only. *)
Theorem C102_katakana :
  forall E, std_ok E -> forall o r, pass_romaji o = true ->
    exists l, NoDup l /\ (forall s, In s l <-> to_katakana_with_opt E s o = Ok r)
      /\ (l <> [] <-> (forall c, In c r -> ~ 0x3041 <= c <= 0x3096))
      /\ (length l <= 2 ^ length r)%nat
      /\ (length l = (2 ^ length r)%nat <-> (forall c, In c r -> 0x30A1 <= c <= 0x30F6)).
Proof. exact C102_katakana_proof. Qed.
Print Assumptions C102_katakana.

Definition C102_pass : options := Build_options false true false false.
Example C102_katakana_case :
  pass_romaji C102_pass = true
  /\ Forall (fun s => to_katakana_with_opt std_1_82 s C102_pass = Ok (u "カナ")) [u "カナ"; u "かナ"; u "カな"; u "かな"]
  /\ to_katakana_with_opt std_1_82 (u "カーa") C102_pass = Ok (u "カーa")
  /\ to_katakana_with_opt std_1_82 (u "かーa") C102_pass = Ok (u "カーa").
Proof. split; [reflexivity|]. split; [repeat constructor|]. vm_compute. auto. Qed.
