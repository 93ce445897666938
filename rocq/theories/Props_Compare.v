(** * C100: the comparisons made by the conversions *)
From Coq Require Import PeanoNat.
From Verif Require Import Base Std StdInstances Convert KanaSpec KanaDict ScriptSpec CostSpec Compare CompareSpec CompareResults Results_Compare.

(** C100.  [to_kana] finds the next letter of a key by going through the letters of a node one by one.  It
    makes at most fifty comparisons for each character of the text and at most 44 for one that begins no key
    (exactly 44 if there are no others); at least one for each character, and
    no more than that only in a text of exclamation marks, the first letter in the list. *)
Theorem C100_kana :
  forall E, std_ok E -> forall o s, exists r l n,
    to_kana_with_opt E s o = Ok r /\ to_kana_cmp E s o = Ok (r, l) /\
    begin_none (mode_of o) s n /\ (forall n', begin_none (mode_of o) s n' -> n' = n) /\
    (length s <= l /\ l + 6 * n <= 50 * length s)%nat /\
    (n = length s -> l = 44 * length s)%nat /\
    (l = length s <-> s = repeat (ch "!") (length s)).
Proof. exact C100_kana_proof. Qed.
Print Assumptions C100_kana.

Example C100_kana_case : to_kana_cmp std_1_82 (u "!!") default_options = Ok (u "！！", 2%nat)
  /\ to_kana_cmp std_1_82 (u "漢字") default_options = Ok (u "漢字", 88%nat)
  /\ to_kana_cmp std_1_82 (u "kyou") default_options = Ok (u "きょう", 66%nat)
  /\ begin_none Default (u "k漢") 1.
Proof.
  split; [vm_compute; reflexivity|]. split; [vm_compute; reflexivity|]. split; [vm_compute; reflexivity|].
  apply BN_key; [exists (ch "k"), (u "a"), (u "か"); split; [now apply lowers_lower|apply entry_node; eexists; split; [vm_compute; reflexivity|reflexivity]]|].
  apply BN_other; [|constructor]. intro B. apply begins_find in B. now vm_compute in B.
Qed.

(** C100.  The binary search of Rust 1.52 looks at no more than 1 + log2 n of n keys, and at that many if the
    key is smaller than all of them; the one of Rust 1.82 always looks at 1 + log2 n of them, with the logarithm rounded up. *)
Theorem C100_search :
  forall keys k, keys <> [] ->
    (exists n, bsearch_152_cmp keys k = (bsearch_152 keys k, n) /\ (1 <= n <= 1 + Nat.log2 (length keys))%nat /\
       ((forall x, In x keys -> k < x) -> n = (1 + Nat.log2 (length keys))%nat)) /\
    bsearch_182_cmp keys k = (bsearch_182 keys k, (1 + Nat.log2_up (length keys))%nat).
Proof. exact C100_search_proof. Qed.
Print Assumptions C100_search.

Example C100_search_case :
  map (bsearch_152_cmp [2; 4; 6; 8; 10]) [1; 6; 7; 10] = [(None, 3%nat); (Some 2%nat, 1%nat); (None, 3%nat); (Some 4%nat, 2%nat)]
  /\ map (bsearch_182_cmp [2; 4; 6; 8; 10]) [1; 6; 7; 10] = [(None, 4%nat); (Some 2%nat, 4%nat); (None, 4%nat); (Some 4%nat, 4%nat)].
Proof. split; vm_compute; reflexivity. Qed.

(** C100.  With these searches [to_romaji] makes, for each character of the text, at most 14 comparisons (Rust 1.52) or 16
    (Rust 1.82), the lookups for the long marks included; at least one (Rust 1.52, no more than that only for は and ハ, in the
    middle of the list) or six (Rust 1.82). *)
Theorem C100_romaji :
  forall E, std_ok E -> forall o s,
    ((forall keys k, bsearch E keys k = bsearch_152 keys k) -> exists r l,
       to_romaji_with_opt E s o = Ok r /\ to_romaji_cmp bsearch_152_cmp E s o = Ok (r, l) /\
       (length s <= l <= 14 * length s)%nat /\
       (l = length s <-> Forall (fun c => c = ch "は" \/ c = ch "ハ") s)) /\
    ((forall keys k, bsearch E keys k = bsearch_182 keys k) -> exists r l,
       to_romaji_with_opt E s o = Ok r /\ to_romaji_cmp bsearch_182_cmp E s o = Ok (r, l) /\
       (6 * length s <= l <= 16 * length s)%nat).
Proof. exact C100_romaji_proof. Qed.
Print Assumptions C100_romaji.

Example C100_romaji_case : (forall keys k, bsearch std_1_52 keys k = bsearch_152 keys k)
  /\ (forall keys k, bsearch std_1_82 keys k = bsearch_182 keys k)
  /\ to_romaji_cmp bsearch_152_cmp std_1_52 (u "コーヒー 漢") default_options = Ok (u "koohii 漢", 55%nat)
  /\ to_romaji_cmp bsearch_182_cmp std_1_82 (u "コーヒー 漢") default_options = Ok (u "koohii 漢", 68%nat)
  /\ to_romaji_cmp bsearch_152_cmp std_1_52 (u "ハは") default_options = Ok (u "haha", 2%nat)
  /\ to_romaji_cmp bsearch_152_cmp std_1_52 (u "りゃ") default_options = Ok (u "rya", 3%nat)
  /\ to_romaji_cmp bsearch_182_cmp std_1_82 (u "きゃりょ") default_options = Ok (u "kyaryo", 24%nat).
Proof. split; [reflexivity|]. split; [reflexivity|]. repeat split; vm_compute; reflexivity. Qed.

(** C100.  Each long mark that lengthens a letter costs one lookup more than the text rewritten to hiragana: eight
    comparisons in Rust 1.82, between one and seven in Rust 1.52. *)
Theorem C100_marks :
  forall E, std_ok E -> forall o s, exists t n p,
    katakana_to_hiragana_with_opt E s true = Ok t /\ lengthening [] s n p /\
    ((forall keys k, bsearch E keys k = bsearch_152 keys k) -> exists r l r' l',
       to_romaji_cmp bsearch_152_cmp E s o = Ok (r, l) /\ to_romaji_cmp bsearch_152_cmp E t o = Ok (r', l') /\
       (l' + n <= l <= l' + 7 * n)%nat) /\
    ((forall keys k, bsearch E keys k = bsearch_182 keys k) -> exists r l r' l',
       to_romaji_cmp bsearch_182_cmp E s o = Ok (r, l) /\ to_romaji_cmp bsearch_182_cmp E t o = Ok (r', l') /\
       l = (l' + 8 * n)%nat).
Proof. exact C100_marks_proof. Qed.
Print Assumptions C100_marks.

Example C100_marks_case : katakana_to_hiragana_with_opt std_1_82 (u "コーヒー") true = Ok (u "こおひい")
  /\ to_romaji_cmp bsearch_182_cmp std_1_82 (u "コーヒー") default_options = Ok (u "koohii", 52%nat)
  /\ to_romaji_cmp bsearch_182_cmp std_1_82 (u "こおひい") default_options = Ok (u "koohii", 36%nat)
  /\ lengthening [] (u "ハー") 1 1.
Proof.
  split; [vm_compute; reflexivity|]. split; [vm_compute; reflexivity|]. split; [vm_compute; reflexivity|].
  apply L_other; [intros [Q _]; discriminate Q|]. apply (L_mark [ch "ハ"] [] (ch "ハ") 0 0); [|constructor].
  exists [], []. repeat split; [discriminate|discriminate| |constructor]. now intros [Q|[Q|[]]].
Qed.

(** C100.  These bounds are reached up to the end of the text: in [to_kana] by z, in [to_romaji] by っ, and the lower bound of
    Rust 1.82 by きゃ. *)
Theorem C100_worst :
  forall E, std_ok E -> forall o m,
    (exists r, to_kana_cmp E (repeat (ch "z") (m + 2)) o = Ok (r, 50 * m + 81)%nat) /\
    ((forall keys k, bsearch E keys k = bsearch_152 keys k) ->
       exists r, to_romaji_cmp bsearch_152_cmp E (repeat (ch "っ") (m + 1)) o = Ok (r, 14 * m + 7)%nat) /\
    ((forall keys k, bsearch E keys k = bsearch_182 keys k) ->
       (exists r, to_romaji_cmp bsearch_182_cmp E (repeat (ch "っ") (m + 1)) o = Ok (r, 16 * m + 8)%nat) /\
       (exists r, to_romaji_cmp bsearch_182_cmp E (concat (repeat (u "きゃ") m)) o = Ok (r, 12 * m)%nat)).
Proof. exact C100_worst_proof. Qed.
Print Assumptions C100_worst.

Example C100_worst_case : to_kana_cmp std_1_82 (u "zzzzz") default_options = Ok (u "zzzzz", 231%nat)
  /\ to_romaji_cmp bsearch_182_cmp std_1_82 (u "っっっ") default_options = Ok (u "", 40%nat)
  /\ to_romaji_cmp bsearch_182_cmp std_1_82 (u "アーーー") default_options = Ok (u "aaaa", 56%nat)
  /\ to_romaji_cmp bsearch_152_cmp std_1_52 (u "イーーー") default_options = Ok (u "iiii", 49%nat).
Proof. repeat split; vm_compute; reflexivity. Qed.
