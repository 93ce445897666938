(** * C101: which entries of the tables are needed *)
From Verif Require Import Base Std StdInstances Convert KanaSpec KanaDict RomajiTree RomajiSpec Table TableSpec Results_Table.

(** C101.  No entry of the romaji to kana tables can be dropped: without it its own key is converted
    differently.  [to_kana_in] is the loop of the code for any table; with the table of the code it is [to_kana]. *)
Theorem C101_kana :
  forall E, std_ok E -> forall o,
    (forall s, to_kana_in (tree_of (mode_of o)) E s = to_kana_with_opt E s o) /\
    (forall k v, entry (mode_of o) k v ->
       to_kana_with_opt E k o = Ok v /\
       exists w, to_kana_in (without k (tree_of (mode_of o))) E k = Ok w /\ w <> v).
Proof. exact C101_kana_proof. Qed.
Print Assumptions C101_kana.

Example C101_kana_case :
  entry (mode_of default_options) (u "kya") (u "きゃ")
  /\ to_kana_with_opt std_1_82 (u "kya") default_options = Ok (u "きゃ")
  /\ to_kana_in (without (u "kya") (tree_of Default)) std_1_82 (u "kya") = Ok (u "kや")
  /\ to_kana_in (without (u "kya") (tree_of Default)) std_1_82 (u "kyaka kyo") = Ok (u "kやか きょ").
Proof. split; [apply pair_mem_In; vm_compute; reflexivity|]. vm_compute. auto. Qed.

(** C101.  Of the entries of the kana to romaji table those can be dropped (one at a time, with what is below them) for
    which っ does nothing, and ヷ, which katakana_to_hiragana has always replaced before; all others are needed.  An
    entry that is not for a symbol is needed once katakana is upper-cased.  (Texts with ゔ are left out: it stands in the
    table five times, and which one is found depends on the other entries.) *)
Theorem C101_romaji :
  forall E, std_ok E -> forall o,
    (forall s, to_romaji_in TO_ROMAJI_NODE_TREE E s o = to_romaji_with_opt E s o) /\
    (forall k, is_key k -> ~ In (ch "ゔ") k ->
       ((forall s, no_v s -> to_romaji_in (cut k TO_ROMAJI_NODE_TREE) E s o = to_romaji_with_opt E s o)
        <-> dead (upcase_katakana o) k)).
Proof. exact C101_romaji_proof. Qed.
Print Assumptions C101_romaji.

Definition C101_upper : options := Build_options false false true false.
Example C101_romaji_case :
  is_key (u "っあ") /\ dead false (u "っあ") /\ ~ dead true (u "っあ") /\ ~ dead false (u "っん") /\ dead true (u "っ。")
  /\ to_romaji_in (cut (u "っあ") TO_ROMAJI_NODE_TREE) std_1_82 (u "っアあっか") default_options = Ok (u "aakka")
  /\ to_romaji_with_opt std_1_82 (u "っア") C101_upper = Ok (u "a")
  /\ to_romaji_in (cut (u "っあ") TO_ROMAJI_NODE_TREE) std_1_82 (u "っア") C101_upper = Ok (u "A")
  /\ to_romaji_with_opt std_1_82 (u "っんあ") default_options = Ok (u "na")
  /\ to_romaji_in (cut (u "っん") TO_ROMAJI_NODE_TREE) std_1_82 (u "っんあ") default_options = Ok (u "n'a")
  /\ to_romaji_with_opt std_1_82 (u "ヷ") default_options = Ok (u "wa").
Proof.
  split; [exists (u "a"); apply pair_mem_In; vm_compute; reflexivity|].
  split; [right; exists (ch "あ"); split; [reflexivity|right; split; [reflexivity|vm_compute; auto]]|].
  split; [intros [Q|(d & Q & [S|[S _]])]; [discriminate Q| |discriminate S]; injection Q as <-; vm_compute in S; intuition discriminate|].
  split; [intros [Q|(d & Q & [S|[_ S]])]; [discriminate Q| |]; injection Q as <-; vm_compute in S; intuition discriminate|].
  split; [right; exists (ch "。"); split; [reflexivity|left; vm_compute; auto]|]. vm_compute. auto 10.
Qed.

(** C101.  The entries that can be dropped can also be dropped together: with those that begin with っ and one of [l] left
    out (and ヷ if [w]), every text is converted as before exactly if っ does nothing before any kana of [l]. *)
Theorem C101_all_at_once :
  forall E, std_ok E -> forall o w l, ~ In (ch "ゔ") l ->
    ((forall s, no_v s -> to_romaji_in (thin w l) E s o = to_romaji_with_opt E s o) <-> drops (upcase_katakana o) l).
Proof. exact C101_all_at_once_proof. Qed.
Print Assumptions C101_all_at_once.

Example C101_all_at_once_case :
  drops false (undoubled_symbols ++ undoubled_kana) /\ ~ drops false (u "あか") /\ is_key (u "っか")
  /\ to_romaji_in (thin true (undoubled_symbols ++ undoubled_kana)) std_1_82 (u "アッあっッカっにゃっ。ヷ") default_options
     = to_romaji_with_opt std_1_82 (u "アッあっッカっにゃっ。ヷ") default_options
  /\ to_romaji_with_opt std_1_82 (u "アッあっッカっにゃっ。ヷ") default_options = Ok (u "aakkanya.wa").
Proof.
  assert (K : is_key (u "っか")) by (exists (u "kka"); apply pair_mem_In; vm_compute; reflexivity).
  split; [|split; [|split; [exact K|vm_compute; auto]]].
  - intros d I _. apply in_app_iff in I. destruct I as [I|I]; [now left|right; now split].
  - intro H. destruct (H (ch "か")) as [S|[_ S]]; [vm_compute; auto|exact K| |]; vm_compute in S; intuition discriminate.
Qed.
