(** * C96, C97: lengths in bytes; growing buffers *)
From Coq Require Import PeanoNat.
From Verif Require Import Base Std StdInstances Convert KanaSpec KanaDict ScriptSpec BytesSpec Bytes Alloc AllocSpec AllocProofs Results_Bytes.

(** C96.  to_romaji never gives more bytes than it was given, so that the capacity it reserves is
    enough.  to_kana gives at most three times and at least three quarters of the bytes, and so does to_katakana of
    text in which only ASCII has letter case; to_hiragana and to_katakana of any text give at most three times the bytes. *)
Theorem C96_bytes :
  forall E, std_ok E -> forall s o,
    (forall t, to_romaji_with_opt E s o = Ok t -> (bytes t <= bytes s)%nat) /\
    (forall t, to_kana_with_opt E s o = Ok t -> (bytes t <= 3 * bytes s /\ 3 * bytes s <= 4 * bytes t)%nat) /\
    (single_lower E ->
       (forall t, to_hiragana_with_opt E s o = Ok t -> (bytes t <= 3 * bytes s)%nat) /\
       (forall t, to_katakana_with_opt E s o = Ok t -> (bytes t <= 3 * bytes s)%nat)) /\
    (ascii_or_caseless s -> forall t, to_katakana_with_opt E s o = Ok t -> (3 * bytes s <= 4 * bytes t)%nat).
Proof. exact C96_bytes_proof. Qed.
Print Assumptions C96_bytes.

Example C96_case : bytes (u "シんヨウ、漢字") = 21%nat /\ bytes [0x130; 0x4B; 0x1F600] = 7%nat
  /\ to_romaji std_1_82 (u "シんヨウ、漢字") = Ok (u "shin'you,漢字") /\ single_lower std_1_82
  /\ to_hiragana std_1_82 [0x130] = Ok [0x130] /\ ascii_or_caseless (u "KA「カ") /\ to_katakana std_1_82 (u "KA「カ") = Ok (u "カ「カ").
Proof.
  do 3 (split; [vm_compute; reflexivity|]). split; [apply unicode14_single|]. split; [vm_compute; reflexivity|]. split; [|vm_compute; reflexivity].
  intros c I. repeat (destruct I as [<-|I]; [vm_compute; auto|]). destruct I.
Qed.

(** No bound can be lowered, however long the text is. *)
Theorem C96_least :
  forall E, std_ok E -> forall o n,
    to_romaji_with_opt E (times n (u "し")) o = Ok (times n (u "shi")) /\ bytes (times n (u "shi")) = bytes (times n (u "し")) /\
    to_kana_with_opt E (times n (u "a")) o = Ok (times n (u "あ")) /\ bytes (times n (u "あ")) = (3 * bytes (times n (u "a")))%nat /\
    to_kana_with_opt E (times n (u "xtsu")) o = Ok (times n (u "っ")) /\ (4 * bytes (times n (u "っ")) = 3 * bytes (times n (u "xtsu")))%nat /\
    to_hiragana_with_opt E (u "ッ" ++ times n (u "ー")) o = Ok (u "っ") /\ bytes (times n (u "ー")) = (3 * n)%nat.
Proof. exact C96_least_proof. Qed.
Print Assumptions C96_least.

Example C96_least_case : times 3 (u "xtsu") = u "xtsuxtsuxtsu" /\ bytes (u "xtsuxtsuxtsu") = 12%nat /\ bytes (u "っっっ") = 9%nat
  /\ to_hiragana std_1_82 (u "ッーーー") = Ok (u "っ").
Proof. vm_compute. auto. Qed.

(** C97.  However buffers grow, to_romaji never outgrows the string it has reserved, nor katakana_to_hiragana its vector.
    If they at least double, the string of to_kana is made larger at most twice, and not at all exactly if its result has no more
    bytes than the text; and collecting characters in a string makes it larger at most twice. *)
Theorem C97_buffers :
  forall gc gb E, std_ok E -> forall s o,
    (exists b t, to_romaji_alloc gc gb E s o = Ok b /\ to_romaji_with_opt E s o = Ok t /\ never_grown b t (bytes s)) /\
    (doubles gb ->
      (exists b t, to_kana_alloc gb E s o = Ok b /\ to_kana_with_opt E s o = Ok t /\ contents b = t /\
         (grown b <= 2)%nat /\ (grown b = 0%nat <-> (bytes t <= bytes s)%nat) /\ (bytes t <= 2 * bytes s -> grown b <= 1)%nat) /\
      (forall d, exists v b t, katakana_to_hiragana_alloc gc gb E s d = Ok (v, b) /\ katakana_to_hiragana_with_opt E s d = Ok t /\
         never_grown v t (length s) /\ contents b = t /\ (grown b <= 2)%nat) /\
      (exists v b t, hiragana_to_katakana_alloc gc gb s = Ok (v, b) /\ hiragana_to_katakana s = Ok t /\
         contents v = t /\ contents b = t /\ (grown b <= 2)%nat)).
Proof. exact C97_buffers_proof. Qed.
Print Assumptions C97_buffers.

Example C97_case : doubles (amortized 8) /\ doubles (amortized 4)
  /\ to_kana_alloc (amortized 8) std_1_82 (u "aaa") default_options = Ok (Build_buffer (u "あああ") 16 2)
  /\ to_kana_alloc (amortized 8) std_1_82 (u "KYA,") default_options = Ok (Build_buffer (u "キャ、") 16 2)
  /\ to_kana_alloc (amortized 8) std_1_82 (u "xtsu漢") default_options = Ok (Build_buffer (u "っ漢") 7 0)
  /\ to_romaji_alloc (amortized 4) (amortized 8) std_1_82 (u "シーン") default_options = Ok (Build_buffer (u "shiin") 9 0)
  /\ katakana_to_hiragana_alloc (amortized 4) (amortized 8) std_1_82 (u "シッーン") false = Ok (Build_buffer (u "しっん") 4 0, Build_buffer (u "しっん") 16 1)
  /\ hiragana_to_katakana_alloc (amortized 4) (amortized 8) (u "しんしんしん") = Ok (Build_buffer (u "シンシンシン") 8 2, Build_buffer (u "シンシンシン") 32 2).
Proof. split; [apply amortized_doubles|]. split; [apply amortized_doubles|]. vm_compute. repeat split. Qed.

(** The vector of hiragana_to_katakana starts with no room; as the standard library makes it larger, it has room for 4, 8, 16, ...
    characters. *)
Theorem C97_doubling :
  forall gb s, exists v b, hiragana_to_katakana_alloc (amortized 4) gb s = Ok (v, b) /\
    (grown v = 0%nat <-> s = []) /\ (s <> [] -> length s <= 2 ^ (grown v + 1))%nat /\ (1 < grown v -> 2 ^ grown v < length s)%nat.
Proof. exact C97_doubling_proof. Qed.
Print Assumptions C97_doubling.

Example C97_doubling_case : exists v b, hiragana_to_katakana_alloc (amortized 4) (amortized 8) (times 9 (u "の")) = Ok (v, b)
  /\ grown v = 3%nat /\ capacity v = 16%nat.
Proof. do 2 eexists. split; [vm_compute; reflexivity|]. split; reflexivity. Qed.
